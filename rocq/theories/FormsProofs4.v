(** FormsProofs4.v -- repeated Dx, compositions of div, grad and curl in Cartesian coordinates, and which calls
    return a result. *)
From Coq Require Import Reals ZArith List Bool Arith Lia Lra.
From Verif Require Import FormsModel FormsSpec FormsProofs FormsProofs2 FormsProofs3.
Import ListNotations.
Local Open Scope R_scope.

Section P.
Context {S : Sym} (L : SymLaws S) (co : coords S).
Implicit Types (c : list (term S)) (e f r : expr S) (x y : pt) (U : nat -> list nat -> pt -> R).
Notation ev := (ev L). Notation good := (good L). Notation mc := (mean_comp L). Notation mean := (mean L).
Notation defined := (defined L).

(** *** Dx with k > 1 *)
Lemma dx_chain k : forall e i r, dx co e i k = Some r -> wf e ->
  like e r /\ wf r /\ (forall y, defined e y -> defined r y) /\
  forall m U, exists F : nat -> pt -> R,
    F 0%nat = mean e m U /\ F k = mean r m U /\
    forall j y, (j < k)%nat -> defined e y -> smooth (e_dim e) U y -> partial i (F j) y (F (Datatypes.S j) y).
Proof.
  induction k as [|k IH]; intros e i r H W.
  - apply some_inj in H. subst r. split; [split; reflexivity|]. split; [exact W|]. split; [auto|].
    intros m U. exists (fun _ => mean e m U). split; [reflexivity|]. split; [reflexivity|]. lia.
  - unfold dx in H. cbn [dx_loop] in H. destruct (dx1 co e i) as [e1|] eqn:E; [|discriminate]. cbn [obind] in H.
    pose proof (dx1_wf co _ _ _ E W) as W1. pose proof (dx1_spec co _ _ _ E) as ((D1 & N1) & _ & _).
    destruct (IH e1 i r H W1) as ((D2 & N2) & W2 & Df & Hc). split; [split; congruence|]. split; [exact W2|].
    split; [intros y Dy; apply Df; eapply dx1_defined; eauto|].
    intros m U. destruct (Hc m U) as (F & F0 & Fk & HF).
    exists (fun j => match j with O => mean e m U | Datatypes.S j => F j end).
    split; [reflexivity|]. split; [exact Fk|]. intros [|j] y Hj Dy HU.
    + rewrite F0. eapply dx1_partial; eauto.
    + apply HF; [lia|eapply dx1_defined; eauto|rewrite D1; exact HU].
Qed.

(** ranks *)
Lemma rank_scalar e : num_components e = 1%nat -> expr_rank e = Some 0%nat.
Proof. unfold expr_rank. intros ->. destruct (Nat.eqb_spec (e_dim e) 1); reflexivity. Qed.
Lemma rank_head e : wf e -> (1 < e_dim e)%nat -> num_components e = e_dim e -> comp e 0 <> [] -> expr_rank e = Some 1%nat.
Proof.
  intros W D N H. unfold expr_rank. destruct (Nat.eqb_spec (e_dim e) 1); [lia|].
  destruct (Nat.eqb_spec (num_components e) 1); [lia|]. unfold comp in H.
  destruct (e_comps e) as [|[|t c] l] eqn:E; cbn in H; try congruence.
  assert (Ht : length (t_der t) = e_dim e) by (apply (W (t :: c)); [rewrite E; left; reflexivity|left; reflexivity]).
  rewrite Ht, N, Nat.eqb_refl. reflexivity.
Qed.
Lemma rank_unique e q : wf e -> (1 < e_dim e)%nat -> num_components e = e_dim e -> expr_rank e = Some q -> q = 1%nat.
Proof.
  intros W D N. unfold expr_rank. destruct (Nat.eqb_spec (e_dim e) 1); [lia|].
  destruct (Nat.eqb_spec (num_components e) 1); [lia|].
  destruct (e_comps e) as [|[|t c] l] eqn:E; try discriminate.
  assert (Ht : length (t_der t) = e_dim e) by (apply (W (t :: c)); [rewrite E; left; reflexivity|left; reflexivity]).
  rewrite Ht, N, Nat.eqb_refl. congruence.
Qed.
Lemma dx1_some e i : (i < e_dim e)%nat -> (expr_rank e = Some 0%nat \/ (co_cart co = true /\ expr_rank e <> None)) -> exists r, dx1 co e i = Some r.
Proof.
  intros Hi H. unfold dx1. destruct (Nat.leb_spec (e_dim e) i); [lia|]. destruct H as [->|[C H]].
  - cbn. eauto.
  - destruct (expr_rank e) as [q|]; [|congruence]. cbn [obind]. rewrite C, orb_true_r. eauto.
Qed.
Lemma dx_comp_nonempty i c : c <> [] -> dx_comp i c <> [].
Proof. intros H E. apply (f_equal (@length _)) in E. pose proof (dx_length i c). destruct c; [congruence|]. cbn in *. lia. Qed.

Hypothesis HC : cartesian L co.

Lemma div_vector e d : wf e -> (1 < e_dim e)%nat -> num_components e = e_dim e -> div co e = Some d ->
  e_dim d = e_dim e /\ num_components d = 1%nat /\ wf d /\
  (forall y, defined e y -> defined d y /\ forall U, mean d 0 U y = rsum (e_dim e) (fun i => mc (dx_comp i (comp e i)) U y)).
Proof.
  intros W D N H. unfold div in H. rewrite (proj1 HC) in H.
  destruct (Nat.eqb_spec (e_dim e) 1); [lia|].
  destruct (Nat.eqb_spec (num_components e) (e_dim e ^ 2)) as [E|_]; [cbn in E; nia|].
  destruct (div_vec_some_rank co e d H) as (q & Hq); [lia|].
  apply (div_vec L co e d W); [|exact H]. rewrite Hq. f_equal. exact (rank_unique _ _ W D N Hq).
Qed.
Lemma div_1d e d : wf e -> e_dim e = 1%nat -> num_components e = 1%nat -> div co e = Some d ->
  e_dim d = 1%nat /\ num_components d = 1%nat /\ wf d /\
  (forall y, defined e y -> defined d y /\ forall U, mean d 0 U y = mc (dx_comp 0 (comp e 0)) U y).
Proof.
  intros W D N H. unfold div in H. rewrite (proj1 HC), D in H. cbn [Nat.eqb] in H.
  pose proof (dx1_spec co _ _ _ H) as ((A & B) & _ & C). split; [congruence|]. split; [congruence|].
  split; [eapply dx1_wf; eauto|]. intros y Dy. split; [eapply dx1_defined; eauto|]. intros U. rewrite mean_mc, C. reflexivity.
Qed.
Lemma div_any e d : wf e -> (0 < e_dim e)%nat -> num_components e = e_dim e -> div co e = Some d ->
  e_dim d = e_dim e /\ num_components d = 1%nat /\ wf d /\
  (forall y, defined e y -> defined d y /\ forall U, mean d 0 U y = rsum (e_dim e) (fun i => mc (dx_comp i (comp e i)) U y)).
Proof.
  intros W D N H. destruct (Nat.eq_dec (e_dim e) 1) as [E|E].
  - destruct (div_1d e d W E) as (A & B & C & M); [congruence|exact H|]. split; [congruence|]. split; [exact B|]. split; [exact C|].
    intros y Dy. destruct (M y Dy) as [M1 M2]. split; [exact M1|]. intros U. rewrite M2, E. cbn. ring.
  - apply div_vector; try assumption. lia.
Qed.

(** the derivative of a component known up to its values near x *)
Lemma dx_of_partial dim i c U x F v : cdef L c x -> cwf dim c -> smooth dim U x -> (i < dim)%nat ->
  near i x (fun y => mc c U y = F y) -> partial i F x v -> mc (dx_comp i c) U x = v.
Proof.
  intros Dc Wc HU Hi E P. eapply partial_unique; [|exact P].
  eapply partial_near; [|eapply partial_mc; eauto]. exact E.
Qed.

Lemma div_grad e g d : wf e -> num_components e = 1%nat -> (0 < e_dim e)%nat -> grad co e = Some g -> div co g = Some d ->
  num_components d = 1%nat /\ wf d /\ forall y, defined e y -> defined d y /\ forall U, smooth (e_dim e) U y ->
    mean d 0 U y = rsum (e_dim e) (fun i => mc (dx_comp i (dx_comp i (comp e 0))) U y).
Proof.
  intros W N D Hg Hd. destruct (grad_scalar L co HC _ _ W N Hg) as (Dg & Ng & Wg & Mg).
  destruct (div_any g d Wg) as (Dd & Nd & Wd & Md); [lia|congruence|exact Hd|].
  split; [exact Nd|]. split; [exact Wd|]. intros y Dy. destruct (Mg y Dy) as [Dgy _]. destruct (Md y Dgy) as [Ddy M].
  split; [exact Ddy|]. intros U HU. rewrite M, Dg. apply rsum_ext. intros i Hi.
  eapply dx_ext with (dim := e_dim e); try assumption.
  - exact (defined_comp L g y i Dgy).
  - apply dx_cdef. exact (defined_comp L e y 0 Dy).
  - rewrite <- Dg. exact (wf_comp g i Wg).
  - apply dx_cwf. exact (wf_comp e 0 W).
  - eapply near_imp; [|exact (defined_near L e y i Dy)]. intros z Dz. destruct (Mg z Dz) as [_ M2]. exact (M2 i U Hi).
Qed.

(** partial derivatives of components known as a difference of derivatives *)
Lemma dx_diff dim i c a b U x : cdef L c x -> cwf dim c -> cdef L a x -> cwf dim a -> cdef L b x -> cwf dim b -> smooth dim U x -> (i < dim)%nat ->
  near i x (fun y => mc c U y = mc a U y - mc b U y) ->
  mc (dx_comp i c) U x = mc (dx_comp i a) U x - mc (dx_comp i b) U x.
Proof.
  intros Dc Wc Da Wa Db Wb HU Hi E. eapply dx_of_partial with (F := fun y => mc a U y - mc b U y); eauto.
  apply partial_minus; eapply partial_mc; eauto.
Qed.
Lemma dx_neg dim i c a U x : cdef L c x -> cwf dim c -> cdef L a x -> cwf dim a -> smooth dim U x -> (i < dim)%nat ->
  near i x (fun y => mc c U y = - mc a U y) -> mc (dx_comp i c) U x = - mc (dx_comp i a) U x.
Proof.
  intros Dc Wc Da Wa HU Hi E. eapply dx_of_partial with (F := fun y => - mc a U y); eauto.
  apply (partial_opp i (mc a U)); eapply partial_mc; eauto.
Qed.

Lemma curl_grad_3d e g w : wf e -> num_components e = 1%nat -> e_dim e = 3%nat -> grad co e = Some g -> curl co g = Some w ->
  num_components w = 3%nat /\ forall y, defined e y -> defined w y /\ forall k U, smooth 3 U y -> mean w k U y = 0.
Proof.
  intros W N D Hg Hw. destruct (grad_scalar L co HC _ _ W N Hg) as (Dg & Ng & Wg & Mg).
  rewrite D in *. 
  assert (Rk : exists q, expr_rank g = Some q).
  { unfold curl in Hw. rewrite (proj1 HC), Dg in Hw. cbn [Nat.eqb] in Hw. unfold curl_comp_cart, getitem in Hw.
    rewrite Dg in Hw. cbn [Nat.leb] in Hw. destruct (expr_rank g) as [q|]; [eauto|discriminate]. }
  destruct Rk as (q & Hq). pose proof (rank_unique g q Wg ltac:(lia) ltac:(congruence) Hq) as ->.
  destruct (curl_3d L co HC g w Wg Hq Dg Hw) as (Dw & Nw & Ww & Mw). split; [exact Nw|].
  intros y Dy. destruct (Mg y Dy) as [Dgy _]. destruct (Mw y Dgy) as [Dwy M]. split; [exact Dwy|]. intros k U HU.
  assert (X : forall i j, (i < 3)%nat -> (j < 3)%nat -> mc (dx_comp i (comp g j)) U y = mc (dx_comp i (dx_comp j (comp e 0))) U y).
  { intros i j Hi Hj. eapply dx_ext with (dim := 3%nat); try assumption.
    - exact (defined_comp L g y j Dgy).
    - apply dx_cdef. exact (defined_comp L e y 0 Dy).
    - rewrite <- Dg. exact (wf_comp g j Wg).
    - apply dx_cwf. rewrite <- D. exact (wf_comp e 0 W).
    - eapply near_imp; [|exact (defined_near L e y i Dy)]. intros z Dz. destruct (Mg z Dz) as [_ M2]. exact (M2 j U Hj). }
  destruct (M U) as (M0 & M1 & M2). rewrite !X in M0, M1, M2 by lia.
  pose proof (defined_comp L e y 0 Dy : cdef L (comp e 0) y) as De.
  rewrite (dx_swap L 1 2) in M0 by exact De. rewrite (dx_swap L 2 0) in M1 by exact De. rewrite (dx_swap L 0 1) in M2 by exact De.
  destruct k as [|[|[|k]]]; [rewrite M0; ring|rewrite M1; ring|rewrite M2; ring|].
  rewrite mean_mc. unfold comp. rewrite nth_overflow; [apply mc_nil|]. unfold num_components in Nw. lia.
Qed.
Lemma curl_grad_2d e g w : wf e -> num_components e = 1%nat -> e_dim e = 2%nat -> grad co e = Some g -> curl co g = Some w ->
  num_components w = 1%nat /\ forall y, defined e y -> defined w y /\ forall U, smooth 2 U y -> mean w 0 U y = 0.
Proof.
  intros W N D Hg Hw. destruct (grad_scalar L co HC _ _ W N Hg) as (Dg & Ng & Wg & Mg).
  rewrite D in *. 
  assert (Rk : exists q, expr_rank g = Some q).
  { unfold curl in Hw. rewrite (proj1 HC), Dg in Hw. cbn [Nat.eqb] in Hw.
    destruct (expr_rank g) as [q|]; [eauto|discriminate]. }
  destruct Rk as (q & Hq). pose proof (rank_unique g q Wg ltac:(lia) ltac:(congruence) Hq) as ->.
  destruct (curl_2d_vector L co HC g w Wg Hq Dg Hw) as (Dw & Nw & Ww & Mw). split; [exact Nw|].
  intros y Dy. destruct (Mg y Dy) as [Dgy _]. destruct (Mw y Dgy) as [Dwy M]. split; [exact Dwy|]. intros U HU.
  assert (X : forall i j, (i < 2)%nat -> (j < 2)%nat -> mc (dx_comp i (comp g j)) U y = mc (dx_comp i (dx_comp j (comp e 0))) U y).
  { intros i j Hi Hj. eapply dx_ext with (dim := 2%nat); try assumption.
    - exact (defined_comp L g y j Dgy).
    - apply dx_cdef. exact (defined_comp L e y 0 Dy).
    - rewrite <- Dg. exact (wf_comp g j Wg).
    - apply dx_cwf. rewrite <- D. exact (wf_comp e 0 W).
    - eapply near_imp; [|exact (defined_near L e y i Dy)]. intros z Dz. destruct (Mg z Dz) as [_ M2]. exact (M2 j U Hj). }
  rewrite M, !X by lia. rewrite (dx_swap L 0 1); [ring|]. exact (defined_comp L e y 0 Dy).
Qed.

Lemma div_curl_3d e w d : wf e -> expr_rank e = Some 1%nat -> e_dim e = 3%nat -> curl co e = Some w -> div co w = Some d ->
  num_components d = 1%nat /\ forall y, defined e y -> defined d y /\ forall U, smooth 3 U y -> mean d 0 U y = 0.
Proof.
  intros W Rk D Hw Hd. destruct (curl_3d L co HC e w W Rk D Hw) as (Dw & Nw & Ww & Mw).
  destruct (div_any w d Ww) as (Dd & Nd & Wd & Md); [lia|congruence|exact Hd|]. split; [exact Nd|].
  intros y Dy. destruct (Mw y Dy) as [Dwy _]. destruct (Md y Dwy) as [Ddy M]. split; [exact Ddy|]. intros U HU.
  rewrite M, Dw. cbn [rsum].
  assert (Ce : forall j, cdef L (comp e j) y) by (intros j; exact (defined_comp L e y j Dy)).
  assert (We : forall j, cwf 3 (comp e j)) by (intros j; rewrite <- D; exact (wf_comp e j W)).
  assert (Cw : forall j, cdef L (comp w j) y) by (intros j; exact (defined_comp L w y j Dwy)).
  assert (Wwj : forall j, cwf 3 (comp w j)) by (intros j; rewrite <- Dw; exact (wf_comp w j Ww)).
  rewrite (dx_diff 3 0 (comp w 0) (dx_comp 1 (comp e 2)) (dx_comp 2 (comp e 1)) U y); auto using dx_cdef, dx_cwf; try lia.
  2: { eapply near_imp; [|exact (defined_near L e y 0 Dy)]. intros z Dz. destruct (Mw z Dz) as [_ M2]. apply M2. }
  rewrite (dx_diff 3 1 (comp w 1) (dx_comp 2 (comp e 0)) (dx_comp 0 (comp e 2)) U y); auto using dx_cdef, dx_cwf; try lia.
  2: { eapply near_imp; [|exact (defined_near L e y 1 Dy)]. intros z Dz. destruct (Mw z Dz) as [_ M2]. apply M2. }
  rewrite (dx_diff 3 2 (comp w 2) (dx_comp 0 (comp e 1)) (dx_comp 1 (comp e 0)) U y); auto using dx_cdef, dx_cwf; try lia.
  2: { eapply near_imp; [|exact (defined_near L e y 2 Dy)]. intros z Dz. destruct (Mw z Dz) as [_ M2]. apply M2. }
  rewrite (dx_swap L 0 1 (comp e 2)), (dx_swap L 0 2 (comp e 1)), (dx_swap L 1 2 (comp e 0)) by apply Ce. ring.
Qed.
Lemma div_curl_2d e w d : wf e -> num_components e = 1%nat -> e_dim e = 2%nat -> curl co e = Some w -> div co w = Some d ->
  num_components d = 1%nat /\ forall y, defined e y -> defined d y /\ forall U, smooth 2 U y -> mean d 0 U y = 0.
Proof.
  intros W N D Hw Hd. destruct (curl_2d_scalar L co HC e w W N D Hw) as (Dw & Nw & Ww & Mw).
  destruct (div_any w d Ww) as (Dd & Nd & Wd & Md); [lia|congruence|exact Hd|]. split; [exact Nd|].
  intros y Dy. destruct (Mw y Dy) as [Dwy _]. destruct (Md y Dwy) as [Ddy M]. split; [exact Ddy|]. intros U HU.
  rewrite M, Dw. cbn [rsum].
  assert (Ce : forall j, cdef L (comp e j) y) by (intros j; exact (defined_comp L e y j Dy)).
  assert (We : forall j, cwf 2 (comp e j)) by (intros j; rewrite <- D; exact (wf_comp e j W)).
  assert (Cw : forall j, cdef L (comp w j) y) by (intros j; exact (defined_comp L w y j Dwy)).
  assert (Wwj : forall j, cwf 2 (comp w j)) by (intros j; rewrite <- Dw; exact (wf_comp w j Ww)).
  rewrite (dx_ext L 2 0 (comp w 0) (dx_comp 1 (comp e 0)) U y); auto using dx_cdef, dx_cwf; try lia.
  2: { eapply near_imp; [|exact (defined_near L e y 0 Dy)]. intros z Dz. destruct (Mw z Dz) as [_ M2]. apply M2. }
  rewrite (dx_neg 2 1 (comp w 1) (dx_comp 0 (comp e 0)) U y); auto using dx_cdef, dx_cwf; try lia.
  2: { eapply near_imp; [|exact (defined_near L e y 1 Dy)]. intros z Dz. destruct (Mw z Dz) as [_ M2]. apply M2. }
  rewrite (dx_swap L 0 1 (comp e 0)) by apply Ce. ring.
Qed.

(** *** which calls return a result *)
Lemma from_components_some dim l : l <> [] -> (forall e, In e l -> exists t c q, e_comps e = (t :: c) :: q) -> exists r, from_components co dim l = Some r.
Proof.
  intros H K. destruct l as [|e l]; [congruence|]. destruct (K e (or_introl eq_refl)) as (t & c & q & E).
  unfold from_components. rewrite E. eauto.
Qed.
Lemma opt_all_total {A B} (f : A -> option B) l : (forall a, In a l -> exists b, f a = Some b) -> exists q, opt_all (map f l) = Some q.
Proof.
  induction l as [|a l IH]; intros H; [cbn; eauto|]. destruct (H a (or_introl eq_refl)) as (b & E).
  destruct IH as (r & Er); [intros a' Ha; apply H; right; exact Ha|]. cbn. rewrite E. cbn. rewrite Er. cbn. eauto.
Qed.
Lemma grad_scalar_some e : num_components e = 1%nat -> (0 < e_dim e)%nat -> comp e 0 <> [] -> exists g, grad co e = Some g.
Proof.
  intros N D H. unfold grad. rewrite (proj1 HC). unfold grad_cart. rewrite N. cbn [Nat.ltb Nat.leb].
  destruct (opt_all_total (fun i => dx1 co e i) (seq 0 (e_dim e))) as (l & El).
  { intros i Hi. apply in_seq in Hi. apply dx1_some; [lia|]. left. apply rank_scalar, N. }
  rewrite El. cbn [obind]. destruct (opt_all_seq _ _ _ enull El) as [Ll Hl].
  destruct (from_components_some (e_dim e) l) as (r & Er).
  - intros ->. cbn in Ll. lia.
  - intros f Hf. destruct (In_nth _ _ enull Hf) as (i & Hi & E). specialize (Hl i). rewrite E in Hl. specialize (Hl ltac:(lia)).
    apply (dx1_spec co) in Hl. destruct Hl as ((A & B) & _ & C). specialize (C 0%nat).
    unfold comp in *. unfold num_components in *. destruct (e_comps f) as [|c q]; [cbn in B; lia|]. cbn in C.
    pose proof (dx_comp_nonempty i _ H) as Ne. destruct c as [|t c]; [congruence|]. eauto.
  - rewrite Er. cbn. eauto.
Qed.
Lemma add_some e f : num_components e = num_components f -> exists r, add e f = Some r.
Proof. intros H. unfold add. rewrite H, Nat.eqb_refl. eauto. Qed.
Lemma add_all_some l : forall d, (forall e, In e l -> num_components e = num_components d) -> exists r, add_all d l = Some r.
Proof.
  induction l as [|e l IH]; intros d H; [cbn; eauto|]. cbn [add_all].
  destruct (add_some d e) as (r & Er); [symmetry; apply H; left; reflexivity|]. rewrite Er. cbn [obind].
  apply IH. intros f Hf. apply add_spec in Er. destruct Er as ((_ & Nr) & _ & _). rewrite Nr. apply H. right. exact Hf.
Qed.
Lemma getitem_some e i : expr_rank e = Some 1%nat -> (i < e_dim e)%nat -> (i < num_components e)%nat -> exists r, getitem e i = Some r.
Proof.
  intros R D N. unfold getitem. destruct (Nat.leb_spec (e_dim e) i); [lia|]. rewrite R. cbn [obind].
  destruct (nth_error (e_comps e) i) eqn:E; [eauto|]. apply nth_error_None in E. unfold num_components in N. lia.
Qed.
Lemma getdx_some e i j : wf e -> expr_rank e = Some 1%nat -> (1 < e_dim e)%nat -> (i < e_dim e)%nat -> (j < e_dim e)%nat ->
  exists r, obind (getitem e i) (fun q => dx1 co q j) = Some r /\ num_components r = 1%nat.
Proof.
  intros W R D Hi Hj. pose proof (rank1_num e W R ltac:(lia)) as N.
  destruct (getitem_some e i R Hi ltac:(lia)) as (c & Ec). rewrite Ec. cbn [obind].
  destruct (getitem_rank1 _ _ _ R Ec) as (A & _ & _ & B).
  assert (Nc : num_components c = 1%nat) by (unfold num_components; rewrite B; reflexivity).
  destruct (dx1_some c j) as (r & Er); [lia|left; apply rank_scalar, Nc|]. exists r. split; [exact Er|].
  rewrite (dx1_num1 co _ _ _ Er). exact Nc.
Qed.
Lemma div_vector_some e : wf e -> expr_rank e = Some 1%nat -> (1 < e_dim e)%nat -> exists d, div co e = Some d.
Proof.
  intros W R D. pose proof (rank1_num e W R ltac:(lia)) as N.
  unfold div. rewrite (proj1 HC). destruct (Nat.eqb_spec (e_dim e) 1); [lia|].
  destruct (Nat.eqb_spec (num_components e) (e_dim e ^ 2)) as [E|_]; [cbn in E; nia|].
  unfold div_vec_cart.
  destruct (opt_all_total (fun i => obind (getitem e i) (fun q => dx1 co q i)) (seq 0 (e_dim e))) as (l & El).
  { intros i Hi. apply in_seq in Hi. destruct (getdx_some e i i W R D) as (r & Er & _); try lia. eauto. }
  rewrite El. cbn [obind]. destruct (opt_all_seq _ _ _ enull El) as [Ll Hl].
  assert (K : forall f, In f l -> num_components f = 1%nat).
  { intros f Hf. destruct (In_nth _ _ enull Hf) as (i & Hi & E). specialize (Hl i). rewrite E in Hl. specialize (Hl ltac:(lia)). cbv beta in Hl.
    destruct (getdx_some e i i W R D) as (r & Er & Nr); try lia. rewrite Er in Hl. apply some_inj in Hl. congruence. }
  destruct l as [|f l]; [cbn in Ll; lia|]. cbn [sum_list].
  destruct (add_all_some l f) as (r & Er). { intros f' Hf'. rewrite (K f'), (K f); [reflexivity|left; reflexivity|right; exact Hf']. }
  rewrite Er. cbn. eauto.
Qed.
Lemma curl_comp_some e a b : wf e -> expr_rank e = Some 1%nat -> (1 < e_dim e)%nat -> (a < e_dim e)%nat -> (b < e_dim e)%nat ->
  exists w, curl_comp_cart co e a b = Some w.
Proof.
  intros W R D Ha Hb. unfold curl_comp_cart.
  destruct (getdx_some e b a W R D Hb Ha) as (r & Er & Nr). destruct (getdx_some e a b W R D Ha Hb) as (s & Es & Ns).
  destruct (getitem e b) as [eb|]; [|discriminate]. cbn [obind] in Er |- *. rewrite Er. cbn [obind].
  destruct (getitem e a) as [ea|]; [|discriminate]. cbn [obind] in Es |- *. rewrite Es. cbn [obind].
  unfold sub. rewrite Nr, Ns. cbn. eauto.
Qed.
Lemma curl_vector_some e : wf e -> expr_rank e = Some 1%nat -> (e_dim e = 2%nat \/ e_dim e = 3%nat) -> exists w, curl co e = Some w.
Proof.
  intros W R [D|D]; unfold curl; rewrite (proj1 HC), D; cbn [Nat.eqb].
  - rewrite R. cbn [obind Nat.ltb Nat.leb]. destruct (curl_comp_some e 0 1 W R) as (w & E); try lia. rewrite E. cbn. eauto.
  - destruct (curl_comp_some e 1 2 W R) as (w0 & E0); try lia. destruct (curl_comp_some e 2 0 W R) as (w1 & E1); try lia.
    destruct (curl_comp_some e 0 1 W R) as (w2 & E2); try lia. rewrite E0, E1, E2. cbn. eauto.
Qed.
Lemma curl_scalar_some e : num_components e = 1%nat -> e_dim e = 2%nat -> comp e 0 <> [] -> exists w, curl co e = Some w.
Proof.
  intros N D H. unfold curl. rewrite (proj1 HC), D. cbn [Nat.eqb]. rewrite (rank_scalar e N). cbn [obind Nat.ltb Nat.leb].
  destruct (dx1_some e 1) as (d1 & E1); [lia|left; apply rank_scalar, N|].
  destruct (dx1_some e 0) as (d0 & E0); [lia|left; apply rank_scalar, N|]. rewrite E1, E0. cbn [obind].
  apply (dx1_spec co) in E1. destruct E1 as ((A & B) & _ & C). specialize (C 0%nat).
  pose proof (dx_comp_nonempty 1 _ H) as Ne. unfold from_components. unfold comp, num_components in *.
  destruct (e_comps d1) as [|[|t c] q]; [cbn in B; lia|cbn in C; congruence|]. cbn. eauto.
Qed.

(** a component with a nonzero value has terms *)
Lemma mean_nonempty e i U y : mean e i U y <> 0 -> comp e i <> [].
Proof. rewrite mean_mc. intros H E. rewrite E in H. apply H. apply mc_nil. Qed.

(** *** basis functions *)
Notation BE := (@basis_expr S).
Lemma basis_wf dim n o : wf (BE dim n o).
Proof.
  intros c Hc t Ht. cbn in Hc |- *. apply in_map_iff in Hc. destruct Hc as (i & <- & _). destruct Ht as [<-|[]]. cbn. apply repeat_length.
Qed.
Lemma basis_num dim n o : num_components (BE dim n o) = n.
Proof. unfold num_components. cbn. rewrite map_length, seq_length. reflexivity. Qed.
Lemma basis_comp dim n o i : (i < n)%nat -> comp (BE dim n o) i = [mkTerm (repeat 0%nat dim) (s_int 1) (o + i)].
Proof.
  intros H. unfold comp. cbn [e_comps basis_expr].
  apply nth_error_nth. rewrite nth_error_map.
  rewrite (nth_error_nth' (seq 0 n) 0%nat) by (rewrite seq_length; exact H). rewrite seq_nth by exact H. reflexivity.
Qed.
Lemma basis_defined dim n o y : dom L y -> defined (BE dim n o) y.
Proof.
  intros HD. split; [exact HD|]. intros c Hc t Ht. cbn in Hc. apply in_map_iff in Hc. destruct Hc as (i & <- & _). destruct Ht as [<-|[]]. cbn. apply (good_int _ L), HD.
Qed.
Lemma basis_mean dim n o i U y : (i < n)%nat -> mean (BE dim n o) i U y = U (o + i)%nat (repeat 0%nat dim) y.
Proof. intros H. rewrite mean_mc, basis_comp by exact H. rewrite mc_cons, mc_nil. cbn. rewrite (ev_int _ L). ring. Qed.
Lemma diff_int j z y : dom L y -> ev (s_diff j (s_int z)) y = 0.
Proof.
  intros HD. eapply partial_unique; [apply (ev_diff _ L), (good_int _ L), HD|].
  eapply partial_near; [|apply (partial_const j (IZR z))]. apply near_all. intros w. symmetry. apply (ev_int _ L).
Qed.
Lemma basis_dx dim n o i j U y : dom L y -> (i < n)%nat ->
  mc (dx_comp j (comp (BE dim n o) i)) U y = U (o + i)%nat (incr j (repeat 0%nat dim)) y.
Proof.
  intros HD H. rewrite (mc_dx L) by exact (defined_comp L _ y i (basis_defined dim n o y HD)).
  rewrite basis_comp by exact H. rewrite dmean_cons, dmean_nil. cbn [t_sc t_der t_ind]. rewrite (ev_int _ L), diff_int by exact HD. ring.
Qed.
Lemma basis_rank1 dim o : (1 < dim)%nat -> expr_rank (BE dim dim o) = Some 1%nat.
Proof.
  intros H. apply rank_head; [apply basis_wf|exact H|apply basis_num|]. rewrite basis_comp by lia. discriminate.
Qed.

Variable origin : pt.
Hypothesis HO : dom L origin.
Lemma grad_basis dim o : (0 < dim)%nat -> exists g, grad co (BE dim 1 o) = Some g /\ comp g 0 <> [] /\ wf g /\ e_dim g = dim /\ num_components g = dim.
Proof.
  intros D. destruct (grad_scalar_some (BE dim 1 o)) as (g & Hg); [apply basis_num|exact D|rewrite basis_comp by lia; discriminate|].
  exists g. split; [exact Hg|]. destruct (grad_scalar L co HC _ _ (basis_wf dim 1 o) (basis_num dim 1 o) Hg) as (A & B & C & M).
  split; [|split; [exact C|split; [exact A|exact B]]].
  apply (mean_nonempty g 0 (fun _ _ _ => 1) origin). destruct (M origin (basis_defined dim 1 o origin HO)) as [_ M2].
  rewrite (M2 0%nat) by exact D. rewrite basis_dx by (exact HO || lia). lra.
Qed.
Lemma div_grad_basis dim o : (0 < dim)%nat -> exists g d, grad co (BE dim 1 o) = Some g /\ div co g = Some d.
Proof.
  intros D. destruct (grad_basis dim o D) as (g & Hg & Ne & Wg & Dg & Ng). exists g. destruct (Nat.eq_dec dim 1) as [->|E].
  - destruct (dx1_some g 0) as (d & Hd); [lia|left; apply rank_scalar, Ng|]. exists d. split; [exact Hg|].
    unfold div. rewrite (proj1 HC), Dg. cbn [Nat.eqb]. exact Hd.
  - destruct (div_vector_some g) as (d & Hd); [exact Wg|apply rank_head; auto; lia|lia|]. eauto.
Qed.
Lemma curl_grad_basis dim o : dim = 2%nat \/ dim = 3%nat -> exists g w, grad co (BE dim 1 o) = Some g /\ curl co g = Some w.
Proof.
  intros D. destruct (grad_basis dim o) as (g & Hg & Ne & Wg & Dg & Ng); [lia|]. exists g.
  destruct (curl_vector_some g) as (w & Hw); [exact Wg|apply rank_head; auto; lia|lia|]. eauto.
Qed.
Lemma div_curl_basis_3d o : exists w d, curl co (BE 3 3 o) = Some w /\ div co w = Some d.
Proof.
  destruct (curl_vector_some (BE 3 3 o)) as (w & Hw); [apply basis_wf|apply basis_rank1; lia|right; reflexivity|]. exists w.
  destruct (curl_3d L co HC _ _ (basis_wf 3 3 o) (basis_rank1 3 o ltac:(lia)) eq_refl Hw) as (A & B & C & M).
  destruct (div_vector_some w) as (d & Hd); [exact C| |lia|eauto]. apply rank_head; [exact C|lia|lia|].
  apply (mean_nonempty w 0 (fun k _ _ => if Nat.eqb k (o + 2) then 1 else 0) origin).
  destruct (M origin (basis_defined 3 3 o origin HO)) as [_ M2]. destruct (M2 (fun k _ _ => if Nat.eqb k (o + 2) then 1 else 0)) as [M3 _].
  rewrite M3, !basis_dx by (exact HO || lia). rewrite Nat.eqb_refl. destruct (Nat.eqb_spec (o + 1) (o + 2)); [lia|]. lra.
Qed.
Lemma div_curl_basis_2d o : exists w d, curl co (BE 2 1 o) = Some w /\ div co w = Some d.
Proof.
  destruct (curl_scalar_some (BE 2 1 o)) as (w & Hw); [apply basis_num|reflexivity|rewrite basis_comp by lia; discriminate|]. exists w.
  destruct (curl_2d_scalar L co HC _ _ (basis_wf 2 1 o) (basis_num 2 1 o) eq_refl Hw) as (A & B & C & M).
  destruct (div_vector_some w) as (d & Hd); [exact C| |lia|eauto]. apply rank_head; [exact C|lia|lia|].
  apply (mean_nonempty w 0 (fun _ _ _ => 1) origin).
  destruct (M origin (basis_defined 2 1 o origin HO)) as [_ M2]. destruct (M2 (fun _ _ _ => 1)) as [M3 _].
  rewrite M3, !basis_dx by (exact HO || lia). lra.
Qed.
End P.
