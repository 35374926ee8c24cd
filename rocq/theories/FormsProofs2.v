(** FormsProofs2.v -- what each operation returns. *)
From Coq Require Import Reals ZArith List Bool Arith Lia Lra.
From Verif Require Import FormsModel FormsSpec FormsProofs.
Import ListNotations.
Local Open Scope R_scope.

Section P.
Context {S : Sym} (L : SymLaws S).
Implicit Types (c : list (term S)) (e f r : expr S) (x y : pt) (U : nat -> list nat -> pt -> R).
Notation ev := (ev L). Notation good := (good L). Notation mc := (mean_comp L). Notation mean := (mean L).
Notation defined := (defined L).

Definition comp e i := nth i (e_comps e) [].
Lemma mean_mc e i U y : mean e i U y = mc (comp e i) U y. Proof. reflexivity. Qed.

(** the same shape *)
Definition like e r := e_dim r = e_dim e /\ num_components r = num_components e.

Lemma map_comps (g : list (term S) -> list (term S)) e i : g [] = [] -> comp (mkExpr (e_dim e) (map g (e_comps e))) i = g (comp e i).
Proof. intros H. unfold comp. cbn. rewrite <- H at 1. apply map_nth. Qed.

(** *** mul, imul, neg *)
Lemma mul_like e a : like e (mul e a). Proof. split; [reflexivity|]. unfold num_components. cbn. apply map_length. Qed.
Lemma mul_wf e a : wf e -> wf (mul e a).
Proof.
  intros H c Hc t Ht. cbn in Hc. apply in_map_iff in Hc. destruct Hc as (c0 & <- & Hc0).
  apply in_map_iff in Ht. destruct Ht as (u & <- & Hu). cbn. eapply H; eauto.
Qed.
Lemma mul_sc s a y : good s y -> good a y -> good (s_simplify (s_refine (s_mul s a))) y /\ ev (s_simplify (s_refine (s_mul s a))) y = ev s y * ev a y.
Proof.
  intros Hs Ha. pose proof (good_mul _ L _ _ y Hs Ha) as G. pose proof (good_refine _ L _ y G) as G1.
  split; [apply (good_simplify _ L), G1|]. rewrite (ev_simplify _ L), (ev_refine _ L), (ev_mul _ L) by assumption. reflexivity.
Qed.
Lemma mul_defined e a y : good a y -> defined e y -> defined (mul e a) y.
Proof.
  intros Ga H. split; [apply H|]. intros c Hc t Ht. cbn in Hc. apply in_map_iff in Hc. destruct Hc as (c0 & <- & Hc0).
  apply in_map_iff in Ht. destruct Ht as (u & <- & Hu). cbn. apply mul_sc; [eapply H; eauto|exact Ga].
Qed.
Lemma mul_mean e a i U y : good a y -> defined e y -> mean (mul e a) i U y = mean e i U y * ev a y.
Proof.
  intros Ga H. rewrite !mean_mc. unfold mul. rewrite map_comps by reflexivity.
  rewrite (mc_map_scale L (fun s => s_simplify (s_refine (s_mul s a))) (ev a y)); [reflexivity|].
  intros t Ht. apply mul_sc; [|exact Ga]. eapply defined_comp; eauto.
Qed.

Lemma imul_like e a : like e (imul e a). Proof. split; [reflexivity|]. unfold num_components. cbn. apply map_length. Qed.
Lemma imul_wf e a : wf e -> wf (imul e a).
Proof.
  intros H c Hc t Ht. cbn in Hc. apply in_map_iff in Hc. destruct Hc as (c0 & <- & Hc0).
  apply in_map_iff in Ht. destruct Ht as (u & <- & Hu). cbn. eapply H; eauto.
Qed.
Lemma imul_sc s a y : good s y -> good a y -> good (s_simplify (s_mul (s_refine s) a)) y /\ ev (s_simplify (s_mul (s_refine s) a)) y = ev s y * ev a y.
Proof.
  intros Hs Ha. pose proof (good_refine _ L _ y Hs) as G0. pose proof (good_mul _ L _ _ y G0 Ha) as G.
  split; [apply (good_simplify _ L), G|]. rewrite (ev_simplify _ L), (ev_mul _ L), (ev_refine _ L) by assumption. reflexivity.
Qed.
Lemma imul_defined e a y : good a y -> defined e y -> defined (imul e a) y.
Proof.
  intros Ga H. split; [apply H|]. intros c Hc t Ht. cbn in Hc. apply in_map_iff in Hc. destruct Hc as (c0 & <- & Hc0).
  apply in_map_iff in Ht. destruct Ht as (u & <- & Hu). cbn. apply imul_sc; [eapply H; eauto|exact Ga].
Qed.
Lemma imul_mean e a i U y : good a y -> defined e y -> mean (imul e a) i U y = mean e i U y * ev a y.
Proof.
  intros Ga H. rewrite !mean_mc. unfold imul. rewrite map_comps by reflexivity.
  rewrite (mc_map_scale L (fun s => s_simplify (s_mul (s_refine s) a)) (ev a y)); [reflexivity|].
  intros t Ht. apply imul_sc; [|exact Ga]. eapply defined_comp; eauto.
Qed.

Lemma neg_like e : like e (neg e). Proof. split; [reflexivity|]. unfold num_components. cbn. apply map_length. Qed.
Lemma neg_wf e : wf e -> wf (neg e).
Proof.
  intros H c Hc t Ht. cbn in Hc. apply in_map_iff in Hc. destruct Hc as (c0 & <- & Hc0).
  apply in_map_iff in Ht. destruct Ht as (u & <- & Hu). cbn. eapply H; eauto.
Qed.
Lemma neg_defined e y : defined e y -> defined (neg e) y.
Proof.
  intros H. split; [apply H|]. intros c Hc t Ht. cbn in Hc. apply in_map_iff in Hc. destruct Hc as (c0 & <- & Hc0).
  apply in_map_iff in Ht. destruct Ht as (u & <- & Hu). cbn. apply (good_mul _ L); [eapply H; eauto|apply (good_int _ L), H].
Qed.
Lemma neg_mean e i U y : mean (neg e) i U y = - mean e i U y.
Proof.
  rewrite !mean_mc. unfold neg. rewrite map_comps by reflexivity.
  rewrite (mc_map_scale L (fun s => s_mul s (s_int (-1))) (-1)); [ring|].
  intros t Ht. rewrite (ev_mul _ L), (ev_int _ L). reflexivity.
Qed.

(** *** add, sub *)
Lemma zip_app_length (a b : list (list (term S))) : length a = length b -> length (zip_app a b) = length a.
Proof. revert b; induction a as [|c a IH]; intros [|d b] H; cbn in *; try lia. f_equal. apply IH. lia. Qed.
Lemma zip_app_nth (a b : list (list (term S))) i : length a = length b -> nth i (zip_app a b) [] = nth i a [] ++ nth i b [].
Proof.
  revert b i; induction a as [|c a IH]; intros [|d b] i H; cbn in H; try discriminate; destruct i; cbn; try reflexivity.
  apply IH. lia.
Qed.
Lemma add_spec e f r : add e f = Some r ->
  like e r /\ num_components e = num_components f /\ forall i, comp r i = comp e i ++ comp f i.
Proof.
  unfold add. destruct (Nat.eqb_spec (num_components e) (num_components f)) as [E|]; [|discriminate]. intros H; injection H as <-.
  split; [split; [reflexivity|]; unfold num_components in *; cbn; apply zip_app_length, E|].
  split; [exact E|]. intros i. unfold comp. cbn. apply zip_app_nth, E.
Qed.
Lemma sub_spec e f r : sub e f = Some r ->
  like e r /\ num_components e = num_components f /\ forall i, comp r i = comp e i ++ map opp_term (comp f i).
Proof.
  unfold sub. destruct (Nat.eqb_spec (num_components e) (num_components f)) as [E|]; [|discriminate]. intros H; injection H as <-.
  assert (E' : length (e_comps e) = length (map (map opp_term) (e_comps f))) by (rewrite map_length; exact E).
  split; [split; [reflexivity|]; unfold num_components in *; cbn; apply zip_app_length, E'|].
  split; [exact E|]. intros i. unfold comp. cbn. rewrite zip_app_nth by exact E'. f_equal.
  change (@nil (term S)) with (map (@opp_term S) []) at 1. apply map_nth.
Qed.
(** properties of all components from properties of the components *)
Lemma wf_of e : (forall i, cwf (e_dim e) (comp e i)) -> wf e.
Proof. intros H c Hc t Ht. destruct (In_nth _ _ [] Hc) as (i & Hi & E). subst c. exact (H i t Ht). Qed.
Lemma defined_of e y : dom L y -> (forall i, cdef L (comp e i) y) -> defined e y.
Proof. intros HD H. split; [exact HD|]. intros c Hc t Ht. destruct (In_nth _ _ [] Hc) as (i & Hi & E). subst c. exact (H i t Ht). Qed.

Lemma add_wf e f r : add e f = Some r -> wf e -> wf f -> e_dim f = e_dim e -> wf r.
Proof.
  intros H We Wf D. apply add_spec in H. destruct H as ((Hd & _) & _ & H). apply wf_of. intros i t Ht. rewrite Hd.
  rewrite H in Ht. apply in_app_or in Ht. destruct Ht as [Ht|Ht]; [exact (wf_comp e i We t Ht)|rewrite <- D; exact (wf_comp f i Wf t Ht)].
Qed.
Lemma add_defined e f r y : add e f = Some r -> defined e y -> defined f y -> defined r y.
Proof.
  intros H He Hf. apply add_spec in H. destruct H as (_ & _ & H). apply defined_of; [apply He|]. intros i t Ht.
  rewrite H in Ht. apply in_app_or in Ht. destruct Ht as [Ht|Ht]; [exact (defined_comp L e y i He t Ht)|exact (defined_comp L f y i Hf t Ht)].
Qed.
Lemma add_mean e f r i U y : add e f = Some r -> mean r i U y = mean e i U y + mean f i U y.
Proof. intros H. apply add_spec in H. destruct H as (_ & _ & H). rewrite !mean_mc, H. apply mc_app. Qed.
Lemma mc_opp c U y : mc (map opp_term c) U y = - mc c U y.
Proof.
  unfold opp_term. rewrite (mc_map_scale L s_opp (-1)); [ring|]. intros t _. rewrite (ev_opp _ L). ring.
Qed.
Lemma sub_wf e f r : sub e f = Some r -> wf e -> wf f -> e_dim f = e_dim e -> wf r.
Proof.
  intros H We Wf D. apply sub_spec in H. destruct H as ((Hd & _) & _ & H). apply wf_of. intros i t Ht. rewrite Hd.
  rewrite H in Ht. apply in_app_or in Ht. destruct Ht as [Ht|Ht]; [exact (wf_comp e i We t Ht)|].
  apply in_map_iff in Ht. destruct Ht as (u & <- & Hu). cbn. rewrite <- D; exact (wf_comp f i Wf u Hu).
Qed.
Lemma sub_defined e f r y : sub e f = Some r -> defined e y -> defined f y -> defined r y.
Proof.
  intros H He Hf. apply sub_spec in H. destruct H as (_ & _ & H). apply defined_of; [apply He|]. intros i t Ht.
  rewrite H in Ht. apply in_app_or in Ht. destruct Ht as [Ht|Ht]; [exact (defined_comp L e y i He t Ht)|].
  apply in_map_iff in Ht. destruct Ht as (u & <- & Hu). cbn. apply (good_opp _ L). exact (defined_comp L f y i Hf u Hu).
Qed.
Lemma sub_mean e f r i U y : sub e f = Some r -> mean r i U y = mean e i U y - mean f i U y.
Proof. intros H. apply sub_spec in H. destruct H as (_ & _ & H). rewrite !mean_mc, H, mc_app, mc_opp. ring. Qed.

(** *** Dx *)
Variable co : coords S.
Lemma dx1_spec e i r : dx1 co e i = Some r ->
  like e r /\ (i < e_dim e)%nat /\ (forall k, comp r k = dx_comp i (comp e k)).
Proof.
  unfold dx1. destruct (Nat.leb_spec (e_dim e) i) as [|Hi]; [discriminate|].
  destruct (expr_rank e) as [rk|]; [|discriminate]. cbn [obind]. destruct (_ || _); [|discriminate].
  intros H; injection H as <-. split; [split; [reflexivity|]; unfold num_components; cbn; apply map_length|].
  split; [exact Hi|]. intros k. apply map_comps. reflexivity.
Qed.
Lemma dx1_wf e i r : dx1 co e i = Some r -> wf e -> wf r.
Proof.
  intros H W. apply dx1_spec in H. destruct H as ((Hd & _) & _ & H). apply wf_of. intros k. rewrite H, Hd.
  apply dx_cwf, wf_comp, W.
Qed.
Lemma dx1_defined e i r y : dx1 co e i = Some r -> defined e y -> defined r y.
Proof.
  intros H W. apply dx1_spec in H. destruct H as (_ & _ & H). apply defined_of; [apply W|]. intros k. rewrite H.
  apply dx_cdef, defined_comp, W.
Qed.
Lemma dx1_partial e i r k U x : dx1 co e i = Some r -> wf e -> defined e x -> smooth (e_dim e) U x ->
  partial i (mean e k U) x (mean r k U x).
Proof.
  intros H W D HU. apply dx1_spec in H. destruct H as (_ & Hi & H). rewrite mean_mc, H.
  eapply partial_mc; eauto; [apply defined_comp, D|apply wf_comp, W].
Qed.
(** the derivative of what e means at x only depends on its meaning near x *)
Lemma dx1_of_partial e i r k U x F d : dx1 co e i = Some r -> wf e -> defined e x -> smooth (e_dim e) U x ->
  near i x (fun y => F y = mean e k U y) -> partial i F x d -> mean r k U x = d.
Proof.
  intros H W D HU E P. eapply partial_unique; [eapply dx1_partial; eauto|]. eapply partial_near; eauto.
Qed.

(** *** getitem *)
Lemma getitem_rank1 e i r : expr_rank e = Some 1%nat -> getitem e i = Some r ->
  e_dim r = e_dim e /\ (i < e_dim e)%nat /\ (i < num_components e)%nat /\ e_comps r = [comp e i].
Proof.
  unfold getitem. destruct (Nat.leb_spec (e_dim e) i) as [|Hi]; [discriminate|]. intros -> H. cbn [obind] in H.
  destruct (nth_error (e_comps e) i) as [c|] eqn:E; [|discriminate]. injection H as <-.
  assert (Hl : (i < num_components e)%nat) by (apply nth_error_Some; congruence).
  repeat split; try assumption. cbn. unfold comp. rewrite (nth_error_nth _ _ [] E). reflexivity.
Qed.
Lemma getitem_sub e i r : getitem e i = Some r -> e_dim r = e_dim e /\ (forall c, In c (e_comps r) -> In c (e_comps e)).
Proof.
  unfold getitem. destruct (Nat.leb (e_dim e) i); [discriminate|]. destruct (expr_rank e) as [[|[|[|k]]]|]; cbn [obind]; try discriminate.
  - destruct (nth_error (e_comps e) i) as [c|] eqn:E; [|discriminate]. intros H; injection H as <-. split; [reflexivity|].
    cbn. intros c' [<-|[]]. eapply nth_error_In; eauto.
  - intros H; injection H as <-. split; [reflexivity|]. cbn [e_comps]. intros c Hc.
    rewrite <- (firstn_skipn (i * e_dim e) (e_comps e)). apply in_or_app. right.
    rewrite <- (firstn_skipn (e_dim e) (skipn _ _)). apply in_or_app. left. exact Hc.
Qed.
Lemma getitem_wf e i r : getitem e i = Some r -> wf e -> wf r.
Proof. intros H W c Hc t Ht. apply getitem_sub in H. destruct H as [Hd H]. rewrite Hd. eapply W; eauto. Qed.
Lemma getitem_defined e i r y : getitem e i = Some r -> defined e y -> defined r y.
Proof. intros H W. split; [apply W|]. intros c Hc t Ht. apply getitem_sub in H. destruct H as [Hd H]. eapply W; eauto. Qed.

Lemma rank1_num e : wf e -> expr_rank e = Some 1%nat -> e_dim e <> 1%nat -> num_components e = e_dim e.
Proof.
  unfold expr_rank. intros W H D. destruct (Nat.eqb_spec (e_dim e) 1); [lia|].
  destruct (Nat.eqb_spec (num_components e) 1); [discriminate|].
  destruct (e_comps e) as [|[|t c] l] eqn:E; try discriminate.
  assert (Hl : length (t_der t) = e_dim e) by (eapply W; [rewrite E; left; reflexivity|left; reflexivity]).
  rewrite Hl in H. destruct (Nat.eqb_spec (num_components e) (e_dim e)); [assumption|].
  destruct (Nat.eqb_spec (num_components e) (e_dim e ^ 2)); discriminate.
Qed.

(** *** sums of lists *)
Lemma add_all_spec l : forall d r, add_all d l = Some r -> wf d -> (forall e, In e l -> wf e /\ e_dim e = e_dim d) ->
  like d r /\ wf r /\ (forall y, defined d y -> (forall e, In e l -> defined e y) -> defined r y) /\
  forall i U y, mean r i U y = fold_left (fun a e => a + mean e i U y) l (mean d i U y).
Proof.
  induction l as [|e l IH]; intros d r H W Hl; cbn in H.
  - injection H as <-. split; [split; reflexivity|]. split; [exact W|]. split; [intros y Hy _; exact Hy|reflexivity].
  - destruct (add d e) as [d'|] eqn:A; [|discriminate]. cbn in H.
    assert (W' : wf d') by (eapply add_wf; eauto; apply Hl; left; reflexivity).
    pose proof (add_spec _ _ _ A) as ((Hd & Hn) & _ & _).
    destruct (IH d' r H W') as ((Ld & Ln) & Wr & Dr & Mr).
    { intros f Hf. rewrite Hd. apply Hl. right. exact Hf. }
    split; [split; congruence|]. split; [exact Wr|]. split.
    + intros y Dd De. apply Dr; [eapply add_defined; eauto; apply De; left; reflexivity|intros f Hf; apply De; right; exact Hf].
    + intros i U y. rewrite Mr. cbn. rewrite (add_mean _ _ _ i U y A). reflexivity.
Qed.
Lemma fold_plus {A} (g : A -> R) l a : fold_left (fun s t => s + g t) l a = a + fold_right (fun t s => g t + s) 0 l.
Proof. revert a; induction l as [|t l IH]; intros a; cbn; [ring|]. rewrite IH. ring. Qed.
Lemma sum_list_spec l r dim : sum_list l = Some r -> (forall e, In e l -> wf e /\ e_dim e = dim) ->
  e_dim r = dim /\ wf r /\ (forall e, In e l -> num_components r = num_components (hd r l)) /\
  (forall y, (forall e, In e l -> defined e y) -> defined r y) /\
  forall i U y, mean r i U y = fold_right (fun e s => mean e i U y + s) 0 l.
Proof.
  destruct l as [|d l]; [discriminate|]. cbn [sum_list]. intros H Hl.
  destruct (Hl d (or_introl eq_refl)) as [Wd Dd].
  destruct (add_all_spec l d r H Wd) as ((Ld & Ln) & Wr & Dr & Mr).
  { intros e He. rewrite Dd. apply Hl. right. exact He. }
  split; [congruence|]. split; [exact Wr|]. split; [intros e _; exact Ln|]. split.
  - intros y Hy. apply Dr; [apply Hy; left; reflexivity|intros e He; apply Hy; right; exact He].
  - intros i U y. rewrite Mr, (fold_plus (fun e => mean e i U y)). reflexivity.
Qed.

Lemma fold_right_nth {A} (g : A -> R) (d : A) l : fold_right (fun t s => g t + s) 0 l = rsum (length l) (fun i => g (nth i l d)).
Proof.
  induction l as [|t l IH]; [reflexivity|]. cbn [fold_right length]. rewrite IH.
  assert (E : forall n (h : nat -> R), rsum (Datatypes.S n) h = h 0%nat + rsum n (fun i => h (Datatypes.S i))).
  { induction n as [|n IHn]; intros h; [cbn; ring|]. cbn [rsum] in *. rewrite IHn. ring. }
  rewrite E. reflexivity.
Qed.
Lemma rsum_ext n (u v : nat -> R) : (forall i, (i < n)%nat -> u i = v i) -> rsum n u = rsum n v.
Proof. intros H. induction n as [|n IH]; cbn; [reflexivity|]. rewrite IH, H by (intros; try apply H; lia). reflexivity. Qed.
Lemma rsum_0 n : rsum n (fun _ => 0) = 0.
Proof. induction n as [|n IH]; cbn; [reflexivity|]. rewrite IH. ring. Qed.

(** *** _expr_from_vector_components *)
Definition fac (dim n i : nat) : S :=
  if co_normal co then
    (if Nat.eqb n dim then co_hi co i
     else if Nat.eqb n (dim ^ 2) then s_mul (co_hi co (i / dim)) (co_hi co (i mod dim)) else s_int 1)
  else s_int 1.

Lemma flat_single {A B} (g : A -> list B) (h : A -> B) l : (forall a, In a l -> g a = [h a]) -> flat_map g l = map h l.
Proof.
  intros H. induction l as [|a l IH]; [reflexivity|]. cbn. rewrite H by (left; reflexivity). cbn. f_equal.
  apply IH. intros b Hb. apply H. right. exact Hb.
Qed.

Lemma seq_combine_nth {A} (l : list A) d : forall n k, (n < length l)%nat -> nth n (combine (seq k (length l)) l) (0%nat, d) = ((k + n)%nat, nth n l d).
Proof.
  induction l as [|a l IH]; intros n k H; cbn in H; [lia|]. destruct n; cbn; [f_equal; lia|].
  rewrite IH by lia. f_equal. lia.
Qed.
Lemma some_inj {A} (a b : A) : Some a = Some b -> b = a. Proof. congruence. Qed.
Lemma from_components_form dim l r : from_components co dim l = Some r ->
  (forall e, In e l -> wf e /\ e_dim e = dim /\ num_components e = 1%nat) ->
  r = mkExpr dim (map (fun ic => comp (imul (snd ic) (fac dim (length l) (fst ic))) 0) (combine (seq 0 (length l)) l)).
Proof.
  unfold from_components. intros H Hl. destruct l as [|c0 l0]; [discriminate|].
  destruct (e_comps c0) as [|[|t ct] cs] eqn:Ec; try discriminate.
  assert (Hd : length (t_der t) = dim).
  { destruct (Hl c0 (or_introl eq_refl)) as (W & D & _). rewrite <- D. eapply W; [rewrite Ec; left; reflexivity|left; reflexivity]. }
  cbv zeta in H. apply some_inj in H. rewrite H, Hd. f_equal. apply flat_single. intros [i e] Hin.
  destruct (Hl e (in_combine_r _ _ _ _ Hin)) as (_ & _ & N1). cbn [fst snd].
  unfold scale_comp. change (if co_normal co then _ else _) with (fac dim (length (c0 :: l0)) i).
  set (a := fac dim (length (c0 :: l0)) i). unfold comp, imul, num_components in *. cbn [e_comps].
  destruct (e_comps e) as [|c [|c' q]]; cbn in N1; try lia. reflexivity.
Qed.
Lemma from_components_spec dim l r : from_components co dim l = Some r ->
  (forall e, In e l -> wf e /\ e_dim e = dim /\ num_components e = 1%nat) ->
  e_dim r = dim /\ num_components r = length l /\ wf r /\
  (forall y, (forall e, In e l -> defined e y) -> (forall i, (i < length l)%nat -> good (fac dim (length l) i) y) ->
     defined r y /\
     forall i U d, (i < length l)%nat -> mean r i U y = mean (nth i l d) 0 U y * ev (fac dim (length l) i) y).
Proof.
  intros H Hl. assert (Hne : l <> []) by (intros ->; discriminate). apply from_components_form in H; [|exact Hl]. subst r.
  split; [reflexivity|]. split; [unfold num_components; cbn; rewrite map_length, combine_length, seq_length; lia|].
  split.
  - intros c Hc t Ht. cbn in Hc |- *. apply in_map_iff in Hc. destruct Hc as ([i e] & <- & Hin).
    destruct (Hl e (in_combine_r _ _ _ _ Hin)) as (W & D & _). cbn [fst snd] in Ht. rewrite <- D.
    exact (wf_comp _ 0 (imul_wf e _ W) t Ht).
  - intros y Dy Gy. split.
    + split; [destruct l as [|e0 l0]; [congruence|exact (proj1 (Dy e0 (or_introl eq_refl)))]|]. intros c Hc t Ht. cbn in Hc. apply in_map_iff in Hc. destruct Hc as ([i e] & <- & Hin). cbn [fst snd] in Ht.
      refine (defined_comp L _ y 0 (imul_defined e _ y _ (Dy e (in_combine_r _ _ _ _ Hin))) t Ht).
      apply Gy. apply in_combine_l, in_seq in Hin. lia.
    + intros i U d Hi. rewrite mean_mc. unfold comp at 1. cbn [e_comps].
      rewrite (nth_indep _ [] (comp (imul d (fac dim (length l) 0)) 0)) by (rewrite map_length, combine_length, seq_length; lia).
      rewrite (map_nth (fun ic => comp (imul (snd ic) (fac dim (length l) (fst ic))) 0) _ (0%nat, d)).
      rewrite seq_combine_nth by exact Hi. cbn [fst snd]. rewrite <- mean_mc, imul_mean; [reflexivity|apply Gy; lia|].
      apply Dy, nth_In, Hi.
Qed.
End P.
