From Coq Require Import Reals List Arith Bool Lia Lra ZArith.
From Verif Require Import Base DeriveModel DeriveSpec.
Import ListNotations.
Local Open Scope R_scope.

Lemma floor_frac z n : (0 < n)%nat -> Int_part (INR n * (IZR z / INR n)) = z.
Proof.
  intros Hn. assert (INR n <> 0) by (apply not_0_INR; lia).
  replace (INR n * (IZR z / INR n)) with (IZR z) by (field; assumption).
  unfold Int_part. rewrite <- (tech_up (IZR z) (z + 1)); [lia| |]; rewrite plus_IZR; lra.
Qed.
Lemma set_pad_idem n p : set_pad n (set_pad n p) = set_pad n p.
Proof.
  unfold set_pad at 2 3. destruct (Req_EM_T p 1).
  - unfold set_pad. destruct (Req_EM_T 1 1); [reflexivity|congruence].
  - destruct (Nat.eqb_spec n 0).
    + unfold set_pad. destruct (Req_EM_T 1 1); [reflexivity|congruence].
    + unfold set_pad. destruct (Req_EM_T _ 1) as [E|E]; [symmetry; exact E|].
      destruct (Nat.eqb_spec n 0); [contradiction|].
      rewrite floor_frac by lia. reflexivity.
Qed.
Lemma set_pad_1 n : set_pad n 1 = 1.
Proof. unfold set_pad; destruct (Req_EM_T 1 1); [reflexivity|congruence]. Qed.
Lemma set_pad_whole n p : (0 < n)%nat -> whole n p (set_pad n p).
Proof.
  intros Hn. unfold set_pad, whole. destruct (Req_EM_T p 1); [left; auto|right; split; [assumption|]].
  destruct (Nat.eqb_spec n 0); [lia|]. exists (Int_part (INR n * p)).
  assert (INR n <> 0) by (apply not_0_INR; lia).
  split; [field; assumption|]. pose proof (base_Int_part (INR n * p)) as [A B]. lra.
Qed.

Lemma opt_over {A} (o : option A) : over None o = o. Proof. reflexivity. Qed.
Lemma update_none d : update d no_kw = d. Proof. destruct d; reflexivity. Qed.

(** what a constructor keeps *)
Lemma construct_inv f c n k s : construct f c n k = Some s ->
  s_fam s = f /\ s_cls s = c /\ s_N s = n /\ s_quad s = get_quad f c (k_quad k) /\ s_dom s = get_dom f c (k_dom k) /\
  s_complex s = (match c with R2C => false | C2C => true | _ => opt (k_dtype k) false end) /\ s_pad s = set_pad n (opt (k_pad k) 1) /\
  s_dealias s = opt (k_dealias k) false /\ s_coords s = opt (k_coords k) 0%nat /\
  s_scaled s = (if accepts_scaled f c then Some (opt (k_scaled k) false) else None) /\ s_alpha s = get_alpha f k /\ s_beta s = get_beta f k /\
  quad_ok f (s_quad s) = true /\
  s_bcs s = (if orth c then None else make_bcs f c (s_dom s) (opt (k_bc k) (default_bc f c))) /\ (orth c = false -> s_bcs s <> None).
Proof.
  unfold construct; intros H. destruct (quad_ok f _) eqn:Q; [|discriminate].
  destruct (orth c) eqn:O.
  - injection H as <-; cbn; repeat split; auto; discriminate.
  - destruct (make_bcs _ _ _ _) eqn:M; [|discriminate]. injection H as <-; cbn; repeat split; auto; discriminate.
Qed.
Lemma orth_four f c : In c (classes f) -> f = Four <-> (c = R2C \/ c = C2C).
Proof.
  intros HI; split.
  - intros ->; destruct HI as [<-|[<-|[]]]; auto.
  - intros [->| ->]; destruct f; auto; exfalso; cbn in HI; intuition discriminate.
Qed.
(** the general step: construction with the keywords of a made space, some of them replaced *)
Lemma rebuild s k m p b :
  In (s_cls s) (classes (s_fam s)) -> construct (s_fam s) (s_cls s) (s_N s) k = Some s ->
  construct (s_fam s) (s_cls s) m (with_pad (kw_of s) p b) =
  Some (mkS (s_fam s) (s_cls s) m (s_quad s) (s_dom s) (s_complex s) (set_pad m p) b (s_coords s) (s_bcs s) (s_scaled s) (s_alpha s) (s_beta s)).
Proof.
  intros HI HC. destruct s as [f c n q d cx pd da co bc sc al be]; cbn [s_fam s_cls s_N s_quad s_dom s_complex s_pad s_dealias s_coords s_bcs s_scaled s_alpha s_beta] in *.
  pose proof (construct_inv _ _ _ _ _ HC) as (_ & _ & _ & Eq & Ed & Ec & Ep & Ea & Eo & Es & El & Eb & Q & B & NB);
  cbn [s_fam s_cls s_N s_quad s_dom s_complex s_pad s_dealias s_coords s_bcs s_scaled s_alpha s_beta] in *.
  assert (ESC : sc = if accepts_scaled f c then Some (opt sc false) else None) by (rewrite Es; destruct (accepts_scaled f c); reflexivity).
  assert (EQ' : get_quad f c (Some q) = q) by (rewrite Eq; unfold get_quad; destruct f, c; reflexivity).
  assert (ED' : get_dom f c (Some d) = d) by (rewrite Ed; unfold get_dom; destruct f, c; reflexivity).
  unfold construct, kw_of, with_pad; cbn [s_fam s_cls s_N s_quad s_dom s_complex s_pad s_dealias s_coords s_bcs s_scaled s_alpha s_beta].
  destruct f; cbn [k_quad k_dom k_dtype k_pad k_dealias k_coords k_bc k_bcs k_scaled k_alpha k_beta] in *.
  8:{ destruct HI as [<-|[<-|[]]]; cbn in *; subst; reflexivity. }
  all: assert (C : c <> R2C /\ c <> C2C) by (split; intros ->; cbn in HI; intuition discriminate); destruct C as [C1 C2].
  all: assert (ECX : cx = match c with R2C => false | C2C => true | _ => opt (Some cx) false end) by (destruct c; first [reflexivity | congruence]).
  all: rewrite EQ', ED', Q.
  all: destruct (orth c) eqn:O.
  all: try (rewrite B; rewrite <- ECX, <- ESC; rewrite El, Eb; reflexivity).
  all: destruct bc as [bc|]; [|exfalso; apply NB; reflexivity]; cbn [opt make_bcs] in *; rewrite <- ECX, <- ESC; rewrite El, Eb; reflexivity.
Qed.
Lemma kw_pad s : with_pad (kw_of s) (s_pad s) (s_dealias s) = kw_of s.
Proof. unfold with_pad, kw_of; destruct (s_fam s); reflexivity. Qed.
Lemma unplanned_same s : made s -> get_unplanned s no_kw = Some s.
Proof.
  intros (k & HI & HC). unfold get_unplanned. rewrite update_none, <- kw_pad, (rebuild s k _ _ _ HI HC).
  pose proof (construct_inv _ _ _ _ _ HC) as (_ & _ & _ & _ & _ & _ & Ep & _).
  rewrite Ep, set_pad_idem, <- Ep. destruct s; reflexivity.
Qed.
Lemma refined_is s m : made s -> get_refined s m no_kw =
  Some (mkS (s_fam s) (s_cls s) m (s_quad s) (s_dom s) (s_complex s) (set_pad m (s_pad s)) (s_dealias s) (s_coords s) (s_bcs s) (s_scaled s) (s_alpha s) (s_beta s)).
Proof. intros (k & HI & HC). unfold get_refined. rewrite update_none, <- kw_pad. apply (rebuild s k _ _ _ HI HC). Qed.
Lemma made_refined s m s' : made s -> get_refined s m no_kw = Some s' -> made s'.
Proof.
  intros (k & HI & HC) H. assert (M : made s) by (exists k; auto). pose proof (refined_is s m M) as E. rewrite E in H; injection H as <-.
  exists (kw_of s). split; [exact HI|]. cbn. unfold get_refined in E; rewrite update_none in E. exact E.
Qed.

Ltac os := repeat match goal with |- context [opt (Some ?x) ?y] => change (opt (Some x) y) with x end.
(** the orthogonal space *)
Lemma orthogonal_is s : made s -> (s_fam s = Lag -> s_dom s = HalfLine /\ s_quad s = LG) -> get_orthogonal s no_kw =
  Some (mkS (s_fam s) (if orth (s_cls s) then s_cls s else Orthogonal) (s_N s) (s_quad s) (s_dom s) (s_complex s) (s_pad s) (s_dealias s) (s_coords s) None None (s_alpha s) (s_beta s)).
Proof.
  intros (k & HI & HC) HL. pose proof (construct_inv _ _ _ _ _ HC) as (_ & _ & _ & Eq & Ed & Ec & Ep & Ea & Eo & Es & El & Eb & Q & B & NB).
  destruct (s_fam s) eqn:F.
  8:{ unfold get_orthogonal. rewrite F. rewrite unplanned_same by (exists k; rewrite F; auto). destruct s; cbn in *; subst.
      destruct HI as [<-|[<-|[]]]; reflexivity. }
  all: assert (C : s_cls s <> R2C /\ s_cls s <> C2C) by (split; intros E; rewrite E in HI; cbn in HI; intuition discriminate); destruct C as [C1 C2].
  all: assert (OO : (if orth (s_cls s) then s_cls s else Orthogonal) = Orthogonal) by (destruct (s_cls s); try reflexivity; congruence).
  all: rewrite OO; unfold get_orthogonal; rewrite F, update_none; unfold kw_of; rewrite F; unfold construct; cbn [without_bc without_scaled k_quad k_dom k_dtype k_pad k_dealias k_coords k_bc k_bcs k_scaled k_alpha k_beta].
  6:{ destruct (HL eq_refl) as [-> ->]. os. rewrite El, Eb, Ep, set_pad_idem. destruct (s_cls s) eqn:EC; try (exfalso; cbn in HI; intuition discriminate); reflexivity. }
  all: unfold get_quad at 1 2, get_dom at 1; os; try rewrite Q; rewrite El, Eb, Ep, set_pad_idem; try reflexivity.
  destruct (s_cls s); try (exfalso; cbn in HI; intuition discriminate). rewrite Eq, Ed; reflexivity.
Qed.
Lemma made_orthogonal s s' : made s -> get_orthogonal s no_kw = Some s' -> made s'.
Proof.
  intros M H. destruct (s_fam s) eqn:F.
  8:{ unfold get_orthogonal in H; rewrite F, (unplanned_same s M) in H. injection H as <-; exact M. }
  all: unfold get_orthogonal in H; rewrite F, update_none in H; pose proof (construct_inv _ _ _ _ _ H) as (A & B & C & _);
       exists (without_scaled (without_bc (kw_of s))); rewrite A, B, C; split; [cbn; tauto | exact H].
Qed.

(** homogeneous conditions *)
Definition zero_conds (l : list name) : conds := map (fun n => (n, 0)) l.
Lemma rescale_zero df l : map (rescale1 df) (zero_conds l) = zero_conds l.
Proof.
  unfold zero_conds. rewrite map_map. apply map_ext. intros [sd []]; cbn; try reflexivity; f_equal; unfold Rdiv; ring.
Qed.
Definition good_default (f : family) (c : cname) : bool :=
  match f, c with _, Generic => false | ChebU, Lower => false | Ultra, Lower => false | _, _ => true end.
Lemma default_zero f c d : In c (classes f) -> orth c = false -> good_default f c = true ->
  make_bcs f c d (default_bc f c) = Some (zero_conds (conditions f c)).
Proof.
  intros HI O G.
  assert (K : forall b l, (match b with Tuple t => of_tuple (own_names f c) t | Dict l => Some l | Made l => None end) = Some (zero_conds l) ->
             make_bcs f c d b = Some (zero_conds l)).
  { intros b l E. unfold make_bcs. destruct b; [rewrite E | injection E as -> | discriminate]; rewrite rescale_zero; reflexivity. }
  apply K. clear K.
  destruct f; cbn [classes] in HI; repeat (destruct HI as [<-|HI]; [try discriminate; reflexivity|]); destruct HI.
Qed.
Lemma homogeneous_is s : made s -> orth (s_cls s) = false -> good_default (s_fam s) (s_cls s) = true ->
  get_homogeneous s no_kw =
  Some (mkS (s_fam s) (s_cls s) (s_N s) (s_quad s) (s_dom s) (s_complex s) (s_pad s) (s_dealias s) (s_coords s) (Some (zero_conds (conditions (s_fam s) (s_cls s)))) (s_scaled s) (s_alpha s) (s_beta s)).
Proof.
  intros (k & HI & HC) O G. pose proof (default_zero (s_fam s) (s_cls s) (s_dom s) HI O G) as DZ.
  destruct s as [f c n q d cx pd da co bc sc al be]; cbn [s_fam s_cls s_N s_quad s_dom s_complex s_pad s_dealias s_coords s_bcs s_scaled s_alpha s_beta] in *.
  pose proof (construct_inv _ _ _ _ _ HC) as (_ & _ & _ & Eq & Ed & Ec & Ep & Ea & Eo & Es & El & Eb & Q & B & NB);
  cbn [s_fam s_cls s_N s_quad s_dom s_complex s_pad s_dealias s_coords s_bcs s_scaled s_alpha s_beta] in *.
  assert (ESC : sc = if accepts_scaled f c then Some (opt sc false) else None) by (rewrite Es; destruct (accepts_scaled f c); reflexivity).
  assert (EQ' : get_quad f c (Some q) = q) by (rewrite Eq; unfold get_quad; destruct f, c; reflexivity).
  assert (ED' : get_dom f c (Some d) = d) by (rewrite Ed; unfold get_dom; destruct f, c; reflexivity).
  assert (ECX : cx = match c with R2C => false | C2C => true | _ => opt (Some cx) false end) by (destruct c; first [reflexivity | discriminate]).
  assert (EP' : set_pad n pd = pd) by (rewrite Ep; apply set_pad_idem).
  unfold get_homogeneous. rewrite update_none.
  unfold construct, kw_of, without_bc; cbn [s_fam s_cls s_N s_quad s_dom s_complex s_pad s_dealias s_coords s_bcs s_scaled s_alpha s_beta].
  destruct f; cbn [k_quad k_dom k_dtype k_pad k_dealias k_coords k_bc k_bcs k_scaled k_alpha k_beta] in *.
  8:{ exfalso. destruct HI as [<-|[<-|[]]]; discriminate. }
  all: rewrite EQ', ED', Q, O; change (opt None (default_bc ?f c)) with (default_bc f c); rewrite DZ, <- ECX, <- ESC; os; rewrite EP', El, Eb; reflexivity.
Qed.

(** ** lists of spaces *)
Lemma all_some_map {A B} (f : A -> option B) (g : A -> B) l : (forall x, In x l -> f x = Some (g x)) -> all_some (map f l) = Some (map g l).
Proof. induction l as [|x l IH]; cbn; intros H; [reflexivity|]. rewrite (H x (or_introl eq_refl)), IH; auto. Qed.
Lemma all_some_inv {A} (l : list (option A)) r : all_some l = Some r -> l = map Some r.
Proof.
  revert r; induction l as [|[x|] l IH]; cbn; intros r H; [injection H as <-; reflexivity | | discriminate].
  destruct (all_some l) eqn:E; [|discriminate]. injection H as <-. cbn. rewrite (IH l0); reflexivity.
Qed.
Lemma unplanned_all l : (forall s, In s l -> made s) -> all_some (map (fun b => get_unplanned b no_kw) l) = Some l.
Proof.
  intros H. rewrite (all_some_map _ (fun x => x)); [rewrite map_id; reflexivity|]. intros x Hx; apply unplanned_same; auto.
Qed.
Definition fourier_class (c : cname) : nat := match c with R2C => 1 | C2C => 2 | _ => 0 end.
Lemma last_class_map l l' ax c : last_class l ax = Some c ->
  Forall2 (fun s s' => fourier_class (s_cls s') = fourier_class (s_cls s)) l l' ->
  exists c', last_class l' ax = Some c' /\ fourier_class c' = fourier_class c.
Proof.
  unfold last_class. destruct (rev ax) as [|x r]; [discriminate|]. destruct (rev x) as [|a q]; [discriminate|].
  intros H F2. revert a H. induction F2 as [|s s' l l' E F2 IH]; intros a H; [destruct a; discriminate|].
  destruct a as [|a]; cbn in H |- *; [injection H as <-; exists (s_cls s'); auto | apply IH; exact H].
Qed.
Lemma tensor_inv comm l axes dt co T : (forall s, In s l -> made s) -> tensor comm l axes dt co = Some T ->
  t_comm T = comm /\ t_bases T = l /\ t_axes T = opt axes (map (fun i => [i]) (seq 0 (length l))) /\ t_coords T = opt co 0%nat
  /\ exists c, last_class l (t_axes T) = Some c /\ (match c with C2C => t_complex T | R2C => negb (t_complex T) | _ => true end) = true
  /\ t_complex T = opt dt (match c with C2C => true | _ => false end).
Proof.
  intros M H. unfold tensor in H. rewrite (unplanned_all l M) in H.
  destruct (last_class l _) as [c|] eqn:E; [|discriminate].
  destruct (match c with C2C => _ | R2C => _ | _ => _ end) eqn:E2; [|discriminate]. injection H as <-; cbn.
  repeat split; auto. exists c; auto.
Qed.
Lemma tensor_again T l' : made_tps T -> (forall s, In s l' -> made s) ->
  Forall2 (fun s s' => fourier_class (s_cls s') = fourier_class (s_cls s)) (t_bases T) l' ->
  tensor (t_comm T) l' (Some (t_axes T)) (Some (t_complex T)) (Some (t_coords T)) = Some (mkT (t_comm T) l' (t_axes T) (t_complex T) (t_coords T)).
Proof.
  intros (M & axes & dt & co & H) M' F2. destruct (tensor_inv _ _ _ _ _ _ M H) as (_ & _ & _ & _ & c & LC & OK & _).
  unfold tensor. rewrite (unplanned_all l' M'). cbn zeta. os.
  destruct (last_class_map _ _ _ _ LC F2) as (c' & -> & EF).
  assert (X : (match c' with C2C => t_complex T | R2C => negb (t_complex T) | _ => true end) = true).
  { destruct c'; try reflexivity; destruct c; try discriminate EF; exact OK. }
  cbn zeta; os. rewrite X; reflexivity.
Qed.
Lemma Forall2_map_r {A B} (P : A -> B -> Prop) (g : A -> B) l : (forall x, In x l -> P x (g x)) -> Forall2 P l (map g l).
Proof. induction l as [|x l IH]; cbn; intros H; constructor; auto. Qed.
Lemma Forall2_in {A B} (P : A -> B -> Prop) l l' y : Forall2 P l l' -> In y l' -> exists x, In x l /\ P x y.
Proof. induction 1 as [|x z l l' Pxz F IH]; [intros []|]. intros [->|Hy]; [exists x; split; [left|]; auto | destruct (IH Hy) as (u & Hu & Pu); exists u; split; [right|]; auto]. Qed.
