(** FormsProofs.v -- lemmas about the meaning of expressions. *)
From Coq Require Import Reals ZArith List Bool Arith Lia Lra.
From Verif Require Import FormsModel FormsSpec.
Import ListNotations.
Local Open Scope R_scope.

Lemma shift_0 x i : shift x i 0 = x.
Proof. apply FunctionalExtensionality.functional_extensionality; intros j. unfold shift. destruct (Nat.eqb j i); ring. Qed.

Lemma partial_unique i f x a b : partial i f x a -> partial i f x b -> a = b.
Proof. intros H1 H2. exact (uniqueness_limite _ _ _ _ H1 H2). Qed.

Definition near (i : nat) (x : pt) (P : pt -> Prop) : Prop := exists d, 0 < d /\ forall h, Rabs h < d -> P (shift x i h).

Lemma near_and i x P Q : near i x P -> near i x Q -> near i x (fun y => P y /\ Q y).
Proof.
  intros (d & H & A) (d' & H' & B). exists (Rmin d d'). split; [apply Rmin_pos; assumption|].
  intros h Hh. split; [apply A|apply B]; eapply Rlt_le_trans; eauto; [apply Rmin_l|apply Rmin_r].
Qed.
Lemma near_imp i x (P Q : pt -> Prop) : (forall y, P y -> Q y) -> near i x P -> near i x Q.
Proof. intros H (d & Hd & A). exists d. split; auto. Qed.
Lemma near_all i x (P : pt -> Prop) : (forall y, P y) -> near i x P.
Proof. intros H. exists 1. split; [lra|auto]. Qed.
Lemma near_here i x P : near i x P -> P x.
Proof. intros (d & Hd & A). specialize (A 0). rewrite shift_0 in A. apply A. rewrite Rabs_R0. exact Hd. Qed.

Lemma partial_near i f g x d : near i x (fun y => f y = g y) -> partial i f x d -> partial i g x d.
Proof.
  intros (d0 & H0 & E) H eps Heps. destruct (H eps Heps) as (del & Hdel).
  assert (Hp : 0 < Rmin (pos del) d0) by (apply Rmin_pos; [apply cond_pos|exact H0]).
  exists (mkposreal _ Hp). intros h Hh Hlt. cbn in Hlt.
  rewrite <- !E.
  - apply Hdel; [exact Hh|]. eapply Rlt_le_trans; [exact Hlt|apply Rmin_l].
  - rewrite Rabs_R0. exact H0.
  - rewrite Rplus_0_l. eapply Rlt_le_trans; [exact Hlt|apply Rmin_r].
Qed.

Lemma partial_const i c x : partial i (fun _ => c) x 0.
Proof. apply derivable_pt_lim_const. Qed.
Lemma partial_plus i f g x a b : partial i f x a -> partial i g x b -> partial i (fun y => f y + g y) x (a + b).
Proof. intros A B. exact (derivable_pt_lim_plus _ _ _ _ _ A B). Qed.
Lemma partial_minus i f g x a b : partial i f x a -> partial i g x b -> partial i (fun y => f y - g y) x (a - b).
Proof. intros A B. exact (derivable_pt_lim_minus _ _ _ _ _ A B). Qed.
Lemma partial_opp i f x a : partial i f x a -> partial i (fun y => - f y) x (- a).
Proof. intros A. exact (derivable_pt_lim_opp _ _ _ A). Qed.
Lemma partial_mult i f g x a b : partial i f x a -> partial i g x b -> partial i (fun y => f y * g y) x (a * g x + f x * b).
Proof.
  intros A B. pose proof (derivable_pt_lim_mult _ _ _ _ _ A B) as H. cbv beta in H.
  rewrite shift_0 in H. exact H.
Qed.

Lemma incr_length i l : length (incr i l) = length l.
Proof. revert i; induction l as [|a l IH]; intros [|i]; cbn; auto. Qed.
Lemma incr_one_more i l : (i < length l)%nat -> one_more i l (incr i l).
Proof.
  intros H. split; [apply incr_length|]. revert i H. induction l as [|a l IH]; intros i H j; [cbn in H; lia|].
  destruct i as [|i], j as [|j]; cbn [incr nth Nat.eqb]; try lia.
  apply IH. cbn in H. lia.
Qed.
Lemma incr_swap i j l : incr i (incr j l) = incr j (incr i l).
Proof. revert i j; induction l as [|a l IH]; intros [|i] [|j]; cbn; try reflexivity. f_equal. apply IH. Qed.

(** ** options *)
Lemma opt_all_some {A} (l : list (option A)) r : opt_all l = Some r -> l = map Some r.
Proof.
  revert r; induction l as [|o l IH]; intros r H; cbn in H.
  - injection H as <-. reflexivity.
  - destruct o as [a|]; [|discriminate]. cbn in H. destruct (opt_all l) as [r'|]; [|discriminate]. cbn in H.
    injection H as <-. cbn. f_equal. apply IH. reflexivity.
Qed.
Lemma opt_all_map {A B} (f : A -> option B) l r : opt_all (map f l) = Some r -> map f l = map Some r /\ length r = length l.
Proof. intros H. apply opt_all_some in H. split; [exact H|]. apply (f_equal (@length _)) in H. rewrite !map_length in H. auto. Qed.
Lemma opt_all_seq {B} (f : nat -> option B) n r (d : B) : opt_all (map f (seq 0 n)) = Some r ->
  length r = n /\ forall i, (i < n)%nat -> f i = Some (nth i r d).
Proof.
  intros H. apply opt_all_map in H. destruct H as [H Hl]. rewrite seq_length in Hl. split; [exact Hl|].
  intros i Hi. assert (E : nth i (map f (seq 0 n)) None = nth i (map Some r) None) by (rewrite H; reflexivity).
  rewrite (nth_indep _ None (f 0%nat)) in E by (rewrite map_length, seq_length; lia).
  rewrite map_nth, seq_nth in E by lia.
  rewrite (nth_indep _ None (Some d)) in E by (rewrite map_length; lia).
  rewrite map_nth in E. exact E.
Qed.
Lemma opt_all_ok {A B} (f : A -> option B) (g : A -> B) l : (forall a, In a l -> f a = Some (g a)) -> opt_all (map f l) = Some (map g l).
Proof.
  intros H. induction l as [|a l IH]; [reflexivity|]. cbn. rewrite H by (left; reflexivity). cbn.
  rewrite IH by (intros b Hb; apply H; right; exact Hb). reflexivity.
Qed.

Section P.
Context {S : Sym} (L : SymLaws S).
Implicit Types (c : list (term S)) (e : expr S) (x y : pt) (U : nat -> list nat -> pt -> R).
Notation ev := (ev L). Notation good := (good L). Notation mc := (mean_comp L). Notation mean := (mean L).

Definition cdef c x := forall t, In t c -> good (t_sc t) x.
Definition cwf (dim : nat) c := forall t, In t c -> length (t_der t) = dim.

Lemma mc_nil U x : mc [] U x = 0. Proof. reflexivity. Qed.
Lemma mc_cons t c U x : mc (t :: c) U x = ev (t_sc t) x * U (t_ind t) (t_der t) x + mc c U x.
Proof. reflexivity. Qed.
Lemma mc_app a b U x : mc (a ++ b) U x = mc a U x + mc b U x.
Proof. induction a as [|t a IH]; [change ([] ++ b) with b; rewrite mc_nil; ring|]. rewrite <- app_comm_cons, !mc_cons, IH. ring. Qed.
Global Opaque mean_comp.

Lemma good_near a x i : good a x -> near i x (good a).
Proof. intros H. exact (good_open _ L a x i H). Qed.
Lemma cdef_near c x i : cdef c x -> near i x (cdef c).
Proof.
  intros H. induction c as [|t c IH].
  - apply near_all. intros y t [].
  - assert (A : near i x (good (t_sc t))) by (apply good_near, H; left; reflexivity).
    assert (B : near i x (cdef c)) by (apply IH; intros u Hu; apply H; right; exact Hu).
    eapply near_imp; [|exact (near_and _ _ _ _ A B)]. intros y [P Q] u [<-|Hu]; auto.
Qed.

(** *** Dx *)
Lemma sc0_ev i a x : good a x -> good (s_refine (s_simplify (s_diff i a))) x /\
  ev (s_refine (s_simplify (s_diff i a))) x = ev (s_diff i a) x.
Proof.
  intros H. pose proof (good_diff _ L i a x H) as G1. pose proof (good_simplify _ L _ x G1) as G2.
  split; [apply (good_refine _ L); exact G2|].
  rewrite (ev_refine _ L) by exact G2. apply (ev_simplify _ L); exact G1.
Qed.

Definition dmean (i : nat) c U x : R :=
  fold_right (fun t acc => ev (s_diff i (t_sc t)) x * U (t_ind t) (t_der t) x + ev (t_sc t) x * U (t_ind t) (incr i (t_der t)) x + acc) 0 c.

Lemma dmean_nil i U x : dmean i [] U x = 0. Proof. reflexivity. Qed.
Lemma dmean_cons i t c U x : dmean i (t :: c) U x =
  ev (s_diff i (t_sc t)) x * U (t_ind t) (t_der t) x + ev (t_sc t) x * U (t_ind t) (incr i (t_der t)) x + dmean i c U x.
Proof. reflexivity. Qed.
Lemma mc_dx i c U x : cdef c x -> mc (dx_comp i c) U x = dmean i c U x.
Proof.
  unfold dx_comp. rewrite mc_app. induction c as [|t c IH]; intros H.
  - cbn. rewrite mc_nil. ring.
  - cbn [map flat_map dmean fold_right]. rewrite mc_cons, mc_app. cbn [t_sc t_der t_ind].
    change (fold_right _ 0 c) with (dmean i c U x). rewrite <- IH by (intros u Hu; apply H; right; exact Hu).
    destruct (sc0_ev i (t_sc t) x) as [_ E]; [apply H; left; reflexivity|].
    cbv zeta. destruct (s_is0 _) eqn:Z.
    + rewrite mc_nil. rewrite <- E, (ev_is0 _ L _ x Z). ring.
    + rewrite mc_cons, mc_nil. cbn [t_sc t_der t_ind]. rewrite E. ring.
Qed.

Lemma dx_cdef i c x : cdef c x -> cdef (dx_comp i c) x.
Proof.
  intros H t Ht. unfold dx_comp in Ht. apply in_app_or in Ht. destruct Ht as [Ht|Ht].
  - apply in_map_iff in Ht. destruct Ht as (u & <- & Hu). cbn. apply H, Hu.
  - apply in_flat_map in Ht. destruct Ht as (u & Hu & Ht). cbv zeta in Ht. destruct (s_is0 _); [destruct Ht|].
    destruct Ht as [<-|[]]. cbn. apply sc0_ev, H, Hu.
Qed.
Lemma dx_cwf dim i c : cwf dim c -> cwf dim (dx_comp i c).
Proof.
  intros H t Ht. unfold dx_comp in Ht. apply in_app_or in Ht. destruct Ht as [Ht|Ht].
  - apply in_map_iff in Ht. destruct Ht as (u & <- & Hu). cbn. rewrite incr_length. apply H, Hu.
  - apply in_flat_map in Ht. destruct Ht as (u & Hu & Ht). cbv zeta in Ht. destruct (s_is0 _); [destruct Ht|].
    destruct Ht as [<-|[]]. cbn. apply H, Hu.
Qed.
Lemma dx_length i c : (length c <= length (dx_comp i c))%nat.
Proof. unfold dx_comp. rewrite app_length, map_length. lia. Qed.

Lemma partial_mc dim i c U x : cdef c x -> cwf dim c -> smooth dim U x -> (i < dim)%nat ->
  partial i (mc c U) x (mc (dx_comp i c) U x).
Proof.
  intros H W HU Hi. rewrite mc_dx by exact H. induction c as [|t c IH].
  - cbn. apply partial_near with (f := fun _ => 0); [apply near_all; reflexivity|apply partial_const].
  - assert (IH' := IH (fun u Hu => H u (or_intror Hu)) (fun u Hu => W u (or_intror Hu))). clear IH.
    rewrite dmean_cons.
    apply partial_near with (f := fun y => ev (t_sc t) y * U (t_ind t) (t_der t) y + mc c U y);
      [apply near_all; intros y; rewrite mc_cons; reflexivity|].
    apply partial_plus; [|exact IH'].
    apply partial_mult; [apply (ev_diff _ L), H; left; reflexivity|].
    assert (Wt : length (t_der t) = dim) by (apply W; left; reflexivity).
    apply HU; [exact Wt|exact Hi|apply incr_one_more; lia].
Qed.

Lemma dx_ext dim i c c' U x : cdef c x -> cdef c' x -> cwf dim c -> cwf dim c' -> smooth dim U x -> (i < dim)%nat ->
  near i x (fun y => mc c U y = mc c' U y) -> mc (dx_comp i c) U x = mc (dx_comp i c') U x.
Proof.
  intros H H' W W' HU Hi E. eapply partial_unique; [|eapply partial_mc; eauto].
  eapply partial_near; [exact E|]. eapply partial_mc; eauto.
Qed.

(** locality of sympy's derivative *)
Lemma diff_local i a b x : good a x -> good b x -> near i x (fun y => ev a y = ev b y) -> ev (s_diff i a) x = ev (s_diff i b) x.
Proof.
  intros Ga Gb E. eapply partial_unique; [|apply (ev_diff _ L); exact Gb].
  eapply partial_near; [exact E|]. apply (ev_diff _ L); exact Ga.
Qed.
Lemma diff_zero i b x : good b x -> near i x (fun y => ev b y = 0) -> ev (s_diff i b) x = 0.
Proof.
  intros Gb E. eapply partial_unique; [apply (ev_diff _ L); exact Gb|].
  eapply partial_near with (f := fun _ => 0); [|apply partial_const].
  eapply near_imp; [|exact E]. intros y Hy. symmetry. exact Hy.
Qed.

(** *** mixed derivatives *)
Lemma mc_dx2 i j c U x : cdef c x ->
  mc (dx_comp i (dx_comp j c)) U x =
  fold_right (fun t acc => ev (s_diff i (s_diff j (t_sc t))) x * U (t_ind t) (t_der t) x
     + ev (s_diff j (t_sc t)) x * U (t_ind t) (incr i (t_der t)) x
     + ev (s_diff i (t_sc t)) x * U (t_ind t) (incr j (t_der t)) x
     + ev (t_sc t) x * U (t_ind t) (incr i (incr j (t_der t))) x + acc) 0 c.
Proof.
  intros H. rewrite mc_dx by (apply dx_cdef, H). unfold dx_comp.
  assert (A : forall a b, dmean i (a ++ b) U x = dmean i a U x + dmean i b U x).
  { induction a as [|t a IH]; intros b; [change ([] ++ b) with b; rewrite dmean_nil; ring|].
    rewrite <- app_comm_cons, !dmean_cons, IH. ring. }
  rewrite A. induction c as [|t c IH].
  - change (map _ []) with (@nil (term S)). cbn [flat_map fold_right]. rewrite dmean_nil. ring.
  - cbn [map flat_map fold_right]. rewrite dmean_cons, A. cbn [t_sc t_der t_ind].
    rewrite <- IH by (intros u Hu; apply H; right; exact Hu).
    assert (Gt : good (t_sc t) x) by (apply H; left; reflexivity).
    destruct (sc0_ev j (t_sc t) x Gt) as [G0 E0].
    assert (E1 : near i x (fun y => ev (s_refine (s_simplify (s_diff j (t_sc t)))) y = ev (s_diff j (t_sc t)) y)).
    { eapply near_imp; [|apply good_near, Gt]. intros y Gy. apply sc0_ev, Gy. }
    cbv zeta. destruct (s_is0 _) eqn:Z.
    + rewrite dmean_nil.
      assert (Z0 : ev (s_diff j (t_sc t)) x = 0) by (rewrite <- E0; apply (ev_is0 _ L _ x Z)).
      rewrite Z0, (diff_zero i (s_diff j (t_sc t)) x); [ring|apply (good_diff _ L), Gt|].
      eapply near_imp; [|exact E1]. intros y Hy. cbv beta in Hy. rewrite <- Hy. apply (ev_is0 _ L _ y Z).
    + rewrite dmean_cons, dmean_nil. cbn [t_sc t_der t_ind].
      rewrite (diff_local i _ (s_diff j (t_sc t)) x G0 (good_diff _ L _ _ _ Gt) E1), E0. ring.
Qed.

Lemma dx_swap i j c U x : cdef c x -> mc (dx_comp i (dx_comp j c)) U x = mc (dx_comp j (dx_comp i c)) U x.
Proof.
  intros H. rewrite !mc_dx2 by exact H. induction c as [|t c IH]; [reflexivity|].
  cbn [fold_right]. rewrite IH by (intros u Hu; apply H; right; exact Hu).
  rewrite (ev_diff_swap _ L i j) by (apply H; left; reflexivity). rewrite (incr_swap i j). ring.
Qed.

(** *** simplify *)
Lemma list_eqb_eq a b : list_eqb a b = true -> a = b.
Proof.
  revert b; induction a as [|x a IH]; intros [|y b] H; cbn in H; try discriminate; [reflexivity|].
  apply andb_prop in H. destruct H as [A B]. apply Nat.eqb_eq in A. subst. f_equal. auto.
Qed.
Lemma same_eq (t u : term S) : same t u = true -> t_der t = t_der u /\ t_ind t = t_ind u.
Proof. unfold same. intros H. apply andb_prop in H. destruct H as [A B]. split; [apply list_eqb_eq, A|apply Nat.eqb_eq, B]. Qed.

Lemma good_rs a x : good a x -> good (s_refine (s_simplify a)) x /\ ev (s_refine (s_simplify a)) x = ev a x.
Proof.
  intros H. pose proof (good_simplify _ L _ x H) as G2. split; [apply (good_refine _ L); exact G2|].
  rewrite (ev_refine _ L) by exact G2. apply (ev_simplify _ L); exact H.
Qed.

Lemma insert_mc t c U x : good (t_sc t) x -> cdef c x ->
  cdef (insert_term t c) x /\ mc (insert_term t c) U x = mc c U x + ev (t_sc t) x * U (t_ind t) (t_der t) x.
Proof.
  intros G H. induction c as [|u c IH]; cbn [insert_term]; cbv zeta.
  - destruct (good_rs _ x G) as [G1 E1]. destruct (s_is0 _) eqn:Z.
    + split; [exact H|]. rewrite mc_nil, <- E1, (ev_is0 _ L _ x Z). ring.
    + split; [intros v [<-|[]]; exact G1|]. rewrite mc_cons, mc_nil. cbn [t_sc t_der t_ind]. rewrite E1. ring.
  - assert (Gu : good (t_sc u) x) by (apply H; left; reflexivity).
    assert (Hc : cdef c x) by (intros v Hv; apply H; right; exact Hv).
    destruct (same t u) eqn:Sm.
    + apply same_eq in Sm. destruct Sm as [Sd Si]. rewrite Sd, Si.
      destruct (good_rs _ x (good_add _ L _ _ x Gu G)) as [G1 E1]. rewrite (ev_add _ L) in E1.
      rewrite mc_cons. destruct (s_is0 _) eqn:Z.
      * split; [exact Hc|]. rewrite (ev_is0 _ L _ x Z) in E1.
        replace (ev (t_sc u) x) with (- ev (t_sc t) x) by lra. ring.
      * split; [intros v [<-|Hv]; [exact G1|apply Hc, Hv]|]. rewrite mc_cons. cbn [t_sc t_der t_ind]. rewrite E1. ring.
    + destruct (IH Hc) as [A B]. split; [intros v [<-|Hv]; [exact Gu|apply A, Hv]|]. rewrite !mc_cons, B. ring.
Qed.
Lemma insert_cwf dim t c : length (t_der t) = dim -> cwf dim c -> cwf dim (insert_term t c).
Proof.
  intros G H. induction c as [|u c IH]; cbn [insert_term]; cbv zeta.
  - destruct (s_is0 _); [exact H|]. intros v [<-|[]]. exact G.
  - assert (Gu := H u (or_introl eq_refl)). assert (Hc : cwf dim c) by (intros v Hv; apply H; right; exact Hv).
    destruct (same t u); [destruct (s_is0 _); [exact Hc|]|]; intros v [<-|Hv]; auto; apply IH; auto.
Qed.

Lemma simplify_comp_ok c U x : cdef c x -> cdef (simplify_comp c) x /\ mc (simplify_comp c) U x = mc c U x.
Proof.
  intros H. unfold simplify_comp.
  assert (A : forall acc, cdef acc x -> cdef (fold_left (fun acc t => insert_term t acc) c acc) x /\
     mc (fold_left (fun acc t => insert_term t acc) c acc) U x = mc acc U x + mc c U x).
  { induction c as [|t c IH]; intros acc Ha; cbn [fold_left].
    - split; [exact Ha|]. rewrite mc_nil. ring.
    - destruct (insert_mc t acc U x (H t (or_introl eq_refl)) Ha) as [B C].
      destruct (IH (fun u Hu => H u (or_intror Hu)) _ B) as [D E]. split; [exact D|]. rewrite E, C, mc_cons. ring. }
  destruct (A [] (fun t Ht => match Ht with end)) as [B C]. split; [exact B|]. rewrite C, mc_nil. ring.
Qed.
Lemma simplify_comp_cwf dim c : cwf dim c -> cwf dim (simplify_comp c).
Proof.
  intros H. unfold simplify_comp.
  assert (A : forall acc, cwf dim acc -> cwf dim (fold_left (fun acc t => insert_term t acc) c acc)).
  { induction c as [|t c IH]; intros acc Ha; cbn [fold_left]; [exact Ha|].
    apply IH; [intros u Hu; apply H; right; exact Hu|]. apply insert_cwf; [apply H; left; reflexivity|exact Ha]. }
  apply A. intros t [].
Qed.

(** no two terms of a simplified component have the same derivatives and index *)
Definition distinct c : Prop := NoDup (map (fun t => (t_der t, t_ind t)) c).
Lemma same_refl (t u : term S) : t_der t = t_der u -> t_ind t = t_ind u -> same t u = true.
Proof.
  intros A B. unfold same. rewrite A, B, Nat.eqb_refl, andb_true_r.
  generalize (t_der u) as l. induction l as [|y l IH]; cbn; [reflexivity|]. rewrite Nat.eqb_refl. exact IH.
Qed.
Lemma insert_keys t c k : In k (map (fun t => (t_der t, t_ind t)) (insert_term t c)) ->
  k = (t_der t, t_ind t) \/ In k (map (fun t => (t_der t, t_ind t)) c).
Proof.
  induction c as [|u c IH]; cbn [insert_term]; cbv zeta.
  - destruct (s_is0 _); cbn; intuition auto.
  - destruct (same t u); [destruct (s_is0 _)|]; cbn [map In t_der t_ind]; intros H; intuition auto.
Qed.
Lemma insert_distinct t c : distinct c -> distinct (insert_term t c).
Proof.
  unfold distinct. induction c as [|u c IH]; cbn [insert_term]; cbv zeta; intros H.
  - destruct (s_is0 _); [exact H|]. cbn. constructor; [intros []|constructor].
  - cbn [map] in H. inversion H as [|? ? Hn Hd]; subst.
    destruct (same t u) eqn:Sm; [destruct (s_is0 _); [exact Hd|exact H]|].
    cbn [map]. constructor; [|apply IH, Hd]. intros Hin. apply insert_keys in Hin. destruct Hin as [E|Hin]; [|exact (Hn Hin)].
    injection E as E1 E2. rewrite (same_refl t u) in Sm by (symmetry; assumption). discriminate.
Qed.
Lemma simplify_distinct c : distinct (simplify_comp c).
Proof.
  unfold simplify_comp. assert (A : forall acc, distinct acc -> distinct (fold_left (fun acc t => insert_term t acc) c acc)).
  { induction c as [|t c IH]; intros acc Ha; cbn [fold_left]; [exact Ha|]. apply IH, insert_distinct, Ha. }
  apply A. constructor.
Qed.

(** *** maps over scales *)
Lemma mc_map_scale (f : S -> S) (k : R) c U x :
  (forall t, In t c -> ev (f (t_sc t)) x = ev (t_sc t) x * k) ->
  mc (map (fun t => mkTerm (t_der t) (f (t_sc t)) (t_ind t)) c) U x = mc c U x * k.
Proof.
  intros H. induction c as [|t c IH]; [change (map _ []) with (@nil (term S)); rewrite mc_nil; ring|].
  cbn [map]. rewrite !mc_cons. cbn [t_sc t_der t_ind]. rewrite IH by (intros u Hu; apply H; right; exact Hu).
  rewrite H by (left; reflexivity). ring.
Qed.

(** *** expressions *)
Lemma defined_comp e x i : defined L e x -> cdef (nth i (e_comps e) []) x.
Proof.
  intros H. destruct (lt_dec i (length (e_comps e))) as [Hi|Hi].
  - intros t Ht. eapply H; [apply nth_In, Hi|exact Ht].
  - rewrite nth_overflow by lia. intros t [].
Qed.
Lemma wf_comp e i : wf e -> cwf (e_dim e) (nth i (e_comps e) []).
Proof.
  intros H. destruct (lt_dec i (length (e_comps e))) as [Hi|Hi].
  - intros t Ht. eapply H; [apply nth_In, Hi|exact Ht].
  - rewrite nth_overflow by lia. intros t [].
Qed.
Lemma defined_near e x i : defined L e x -> near i x (defined L e).
Proof.
  intros [HD H]. apply near_and; [eapply near_imp; [apply (good_dom _ L)|exact (good_near (s_int 0) x i (good_int _ L _ x HD))]|].
  induction (e_comps e) as [|c l IH].
  - apply near_all. intros y c [].
  - assert (A : near i x (cdef c)) by (apply cdef_near; intros t Ht; eapply H; [left; reflexivity|exact Ht]).
    assert (B := IH (fun c' Hc => H c' (or_intror Hc))).
    eapply near_imp; [|exact (near_and _ _ _ _ A B)]. intros y [P Q] c' [<-|Hc'] t Ht; [apply P, Ht|eapply Q; eauto].
Qed.

Lemma simplify_ok e x : defined L e x -> defined L (simplify e) x.
Proof.
  intros H. unfold simplify. destruct (forallb _ _); [exact H|]. split; [apply H|].
  intros c Hc t Ht. cbn in Hc. apply in_map_iff in Hc. destruct Hc as (c0 & <- & Hc0).
  eapply (simplify_comp_ok c0 (fun _ _ _ => 0) x); [intros u Hu; eapply H; eauto|exact Ht].
Qed.
Lemma simplify_wf e : wf e -> wf (simplify e).
Proof.
  intros H. unfold simplify. destruct (forallb _ _); [exact H|].
  intros c Hc t Ht. cbn in Hc. apply in_map_iff in Hc. destruct Hc as (c0 & <- & Hc0). cbn.
  eapply simplify_comp_cwf; [intros u Hu; eapply H; eauto|exact Ht].
Qed.
Lemma simplify_mean e i U x : defined L e x -> mean (simplify e) i U x = mean e i U x.
Proof.
  intros H. unfold simplify. destruct (forallb _ _); [reflexivity|]. unfold FormsSpec.mean. cbn [e_comps].
  change (@nil (term S)) with (simplify_comp (S := S) []) at 1. rewrite map_nth. apply simplify_comp_ok, defined_comp, H.
Qed.
Lemma simplify_dim e : e_dim (simplify e) = e_dim e.
Proof. unfold simplify. destruct (forallb _ _); reflexivity. Qed.
Lemma simplify_num e : num_components (simplify e) = num_components e.
Proof. unfold simplify, num_components. destruct (forallb _ _); [reflexivity|]. cbn. apply map_length. Qed.
End P.
