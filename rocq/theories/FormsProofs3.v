(** FormsProofs3.v -- div, grad and curl in Cartesian coordinates. *)
From Coq Require Import Reals ZArith List Bool Arith Lia Lra.
From Verif Require Import FormsModel FormsSpec FormsProofs FormsProofs2.
Import ListNotations.
Local Open Scope R_scope.

Lemma rsum_plus n (u v : nat -> R) : rsum n (fun i => u i + v i) = rsum n u + rsum n v.
Proof. induction n as [|n IH]; cbn; [ring|]. rewrite IH. ring. Qed.
Lemma rsum_scal n a (u : nat -> R) : rsum n (fun i => a * u i) = a * rsum n u.
Proof. induction n as [|n IH]; cbn; [ring|]. rewrite IH. ring. Qed.

Section P.
Context {S : Sym} (L : SymLaws S) (co : coords S).
Implicit Types (c : list (term S)) (e f r : expr S) (x y : pt) (U : nat -> list nat -> pt -> R).
Notation ev := (ev L). Notation good := (good L). Notation mc := (mean_comp L). Notation mean := (mean L).
Notation defined := (defined L).
Definition unit_hi (d : nat) : Prop := forall i y, (i < d)%nat -> dom L y -> good (co_hi co i) y /\ ev (co_hi co i) y = 1.
Definition cartesian : Prop := co_cart co = true /\ forall i y, dom L y -> good (co_hi co i) y /\ ev (co_hi co i) y = 1.
Hypothesis HT : co_cart co = true.

Lemma fac_one_at dim n i y : unit_hi dim -> (i < n)%nat -> dom L y -> good (fac co dim n i) y /\ ev (fac co dim n i) y = 1.
Proof.
  intros H Hi HD. unfold fac. destruct (co_normal co).
  - destruct (Nat.eqb_spec n dim); [apply H; [lia|exact HD]|]. destruct (Nat.eqb_spec n (dim ^ 2)) as [E|E].
    + cbn in E. rewrite Nat.mul_1_r in E. assert (D0 : dim <> 0%nat) by (intros ->; cbn in E; lia).
      destruct (H (i / dim)%nat y) as [A B]; [apply Nat.div_lt_upper_bound; lia|exact HD|].
      destruct (H (i mod dim)%nat y) as [C D]; [apply Nat.mod_upper_bound, D0|exact HD|]. split.
      * apply (good_mul _ L); assumption.
      * rewrite (ev_mul _ L), B, D. ring.
    + split; [apply (good_int _ L), HD|apply (ev_int _ L)].
  - split; [apply (good_int _ L), HD|apply (ev_int _ L)].
Qed.
Lemma cart_true : co_cart co = true. Proof. exact HT. Qed.

Definition enull : expr S := mkExpr 0 [].
Lemma dx1_num1 e i r : dx1 co e i = Some r -> num_components r = num_components e.
Proof. intros H. apply dx1_spec in H. apply H. Qed.

(** *** grad of a scalar *)
Lemma grad_scalar_at e g : unit_hi (e_dim e) -> wf e -> num_components e = 1%nat -> grad co e = Some g ->
  e_dim g = e_dim e /\ num_components g = e_dim e /\ wf g /\
  (forall y, defined e y -> defined g y /\ forall i U, (i < e_dim e)%nat -> mean g i U y = mc (dx_comp i (comp e 0)) U y).
Proof.
  intros HU1 W N1 H. unfold grad in H. rewrite cart_true in H. unfold grad_cart in H. rewrite N1 in H. cbn [Nat.ltb Nat.leb] in H.
  destruct (opt_all _) as [l|] eqn:El; [|discriminate]. cbn [obind] in H.
  destruct (opt_all_seq _ _ _ enull El) as [Hl Hn].
  destruct (from_components co (e_dim e) l) as [dv|] eqn:Ed; [|discriminate]. cbn [obind] in H. injection H as <-.
  assert (Hin : forall d, In d l -> wf d /\ e_dim d = e_dim e /\ num_components d = 1%nat).
  { intros d Hd. destruct (In_nth _ _ enull Hd) as (i & Hi & E). rewrite Hl in Hi. specialize (Hn i Hi). rewrite E in Hn.
    split; [eapply dx1_wf; eauto|]. pose proof (dx1_spec _ _ _ _ Hn) as ((A & B) & _ & _). split; congruence. }
  destruct (from_components_spec L co _ _ _ Ed Hin) as (Dd & Nd & Wd & Md).
  rewrite simplify_dim, simplify_num. split; [exact Dd|]. split; [congruence|]. split; [apply simplify_wf, Wd|].
  intros y Dy.
  destruct (Md y) as [D1 M1].
  { intros d Hd. destruct (In_nth _ _ enull Hd) as (i & Hi & E). rewrite Hl in Hi. specialize (Hn i Hi). rewrite E in Hn. eapply dx1_defined; eauto. }
  { intros i Hi0. apply fac_one_at; [exact HU1|exact Hi0|apply Dy]. }
  split; [apply simplify_ok, D1|]. intros i U Hi. rewrite simplify_mean by exact D1.
  rewrite (M1 i U enull) by lia. destruct (fac_one_at (e_dim e) (length l) i y HU1 ltac:(lia) (proj1 Dy)) as [_ ->]. rewrite Rmult_1_r.
  specialize (Hn i Hi). pose proof (dx1_spec _ _ _ _ Hn) as (_ & _ & B). rewrite mean_mc, B. reflexivity.
Qed.

(** *** grad of a vector *)
Lemma concat_nth {A} (d : A) n : forall (l : list (list A)) i j, (forall q, In q l -> length q = n) -> (j < n)%nat -> (i < length l)%nat ->
  nth (i * n + j) (concat l) d = nth j (nth i l []) d /\ length (concat l) = (length l * n)%nat.
Proof.
  induction l as [|q l IH]; intros i j H Hj Hi; [cbn in Hi; lia|]. cbn [concat length]. rewrite app_length.
  assert (Hq : length q = n) by (apply H; left; reflexivity).
  assert (Hc : length (concat l) = (length l * n)%nat).
  { clear -H. assert (H' : forall q', In q' l -> length q' = n) by (intros q' Hq'; apply H; right; exact Hq').
    induction l as [|a l IHl]; [reflexivity|]. cbn. rewrite app_length, IHl; [rewrite H'; [reflexivity|left; reflexivity]| |].
    - intros z [->|Hz]; [apply H; left; reflexivity|apply H; right; right; exact Hz].
    - intros z Hz. apply H'. right. exact Hz. }
  split; [|rewrite Hq, Hc; cbn; lia].
  destruct i as [|i]; cbn [nth].
  - rewrite app_nth1 by lia. f_equal.
  - rewrite app_nth2 by nia. replace (Datatypes.S i * n + j - length q)%nat with (i * n + j)%nat by nia.
    apply IH; [intros q' Hq'; apply H; right; exact Hq'|exact Hj|cbn in Hi; lia].
Qed.

Lemma grad_vector_at e g : unit_hi (e_dim e) -> wf e -> expr_rank e = Some 1%nat -> (e_dim e <> 1)%nat -> grad co e = Some g ->
  e_dim g = e_dim e /\ num_components g = (e_dim e * e_dim e)%nat /\ wf g /\
  (forall y, defined e y -> defined g y /\ forall i j U, (i < e_dim e)%nat -> (j < e_dim e)%nat ->
     mean g (i * e_dim e + j) U y = mc (dx_comp j (comp e i)) U y).
Proof.
  intros HU1 W Rk D1 H. pose proof (rank1_num _ W Rk D1) as N.
  assert (D0 : (1 < e_dim e)%nat).
  { unfold expr_rank in Rk. destruct (Nat.eqb_spec (e_dim e) 1); [lia|]. rewrite N in Rk.
    destruct (e_dim e) as [|[|k]] eqn:E; [|lia|lia]. unfold num_components in N. destruct (e_comps e); discriminate. }
  unfold grad in H. rewrite cart_true in H. unfold grad_cart in H. rewrite N in H.
  destruct (Nat.ltb_spec 1 (e_dim e)) as [_|]; [|lia].
  destruct (opt_all _) as [ll|] eqn:El; [|discriminate]. cbn [obind] in H.
  destruct (opt_all_seq _ _ _ [] El) as [Hl Hn].
  destruct (from_components co (e_dim e) (concat ll)) as [dv|] eqn:Ed; [|discriminate]. cbn [obind] in H. injection H as <-.
  assert (Hrow : forall i, (i < e_dim e)%nat -> length (nth i ll []) = e_dim e /\
     forall j, (j < e_dim e)%nat -> exists ci, getitem e i = Some ci /\ dx1 co ci j = Some (nth j (nth i ll []) enull)).
  { intros i Hi. specialize (Hn i Hi). destruct (opt_all_seq _ _ _ enull Hn) as [A B]. split; [exact A|].
    intros j Hj. specialize (B j Hj). destruct (getitem e i) as [ci|]; [|discriminate]. exists ci. split; [reflexivity|exact B]. }
  assert (Hq : forall q, In q ll -> length q = e_dim e).
  { intros q Hq. destruct (In_nth _ _ [] Hq) as (i & Hi & E). subst q. apply Hrow. lia. }
  assert (Hd : forall d, In d (concat ll) -> exists i j ci, getitem e i = Some ci /\ dx1 co ci j = Some d).
  { intros d Hd. apply in_concat in Hd. destruct Hd as (q & Hq1 & Hq2).
    destruct (In_nth _ _ [] Hq1) as (i & Hi & E). destruct (In_nth _ _ enull Hq2) as (j & Hj & E2). subst q. rewrite Hl in Hi.
    destruct (Hrow i Hi) as [A B]. rewrite A in Hj. destruct (B j Hj) as (ci & C1 & C2). rewrite E2 in C2. exists i, j, ci. auto. }
  assert (Hin : forall d, In d (concat ll) -> wf d /\ e_dim d = e_dim e /\ num_components d = 1%nat).
  { intros d Hdd. destruct (Hd d Hdd) as (i & j & ci & G & X).
    split; [eapply dx1_wf; eauto; eapply getitem_wf; eauto|].
    pose proof (dx1_spec _ _ _ _ X) as ((A & B) & _ & _). destruct (getitem_rank1 _ _ _ Rk G) as (A1 & _ & _ & A2).
    split; [congruence|]. rewrite B. unfold num_components. rewrite A2. reflexivity. }
  destruct (from_components_spec L co _ _ _ Ed Hin) as (Dd & Nd & Wd & Md).
  destruct (concat_nth enull (e_dim e) ll 0 0 Hq ltac:(lia) ltac:(lia)) as [_ Hcl]. rewrite Hl in Hcl.
  rewrite simplify_dim, simplify_num. split; [exact Dd|]. split; [congruence|]. split; [apply simplify_wf, Wd|].
  intros y Dy. destruct (Md y) as [D2 M2].
  { intros d Hdd. destruct (Hd d Hdd) as (i & j & ci & G & X). eapply dx1_defined; eauto. eapply getitem_defined; eauto. }
  { intros i Hi0. apply fac_one_at; [exact HU1|exact Hi0|apply Dy]. }
  split; [apply simplify_ok, D2|]. intros i j U Hi Hj. rewrite simplify_mean by exact D2.
  rewrite (M2 _ U enull) by (rewrite Hcl; nia). destruct (fac_one_at (e_dim e) (length (concat ll)) (i * e_dim e + j) y HU1 ltac:(rewrite Hcl; nia) (proj1 Dy)) as [_ ->]. rewrite Rmult_1_r.
  destruct (concat_nth enull (e_dim e) ll i j Hq Hj ltac:(lia)) as [-> _].
  destruct (Hrow i Hi) as [_ B]. destruct (B j Hj) as (ci & C1 & C2).
  pose proof (dx1_spec _ _ _ _ C2) as (_ & _ & X). rewrite mean_mc, X.
  destruct (getitem_rank1 _ _ _ Rk C1) as (_ & _ & _ & A2). unfold comp at 1. rewrite A2. reflexivity.
Qed.

(** *** div of a vector *)
Lemma div_vec e d : wf e -> expr_rank e = Some 1%nat -> div_vec_cart co e = Some d ->
  e_dim d = e_dim e /\ num_components d = 1%nat /\ wf d /\
  (forall y, defined e y -> defined d y /\ forall U, mean d 0 U y = rsum (e_dim e) (fun i => mc (dx_comp i (comp e i)) U y)).
Proof.
  intros W Rk H. unfold div_vec_cart in H.
  destruct (opt_all _) as [l|] eqn:El; [|discriminate]. cbn [obind] in H.
  destruct (opt_all_seq _ _ _ enull El) as [Hl Hn].
  destruct (sum_list l) as [s|] eqn:Es; [|discriminate]. cbn [obind] in H. injection H as <-.
  assert (Hi : forall i, (i < e_dim e)%nat -> exists ci, getitem e i = Some ci /\ dx1 co ci i = Some (nth i l enull)).
  { intros i Hi. specialize (Hn i Hi). destruct (getitem e i) as [ci|]; [|discriminate]. exists ci. auto. }
  assert (Hin : forall f, In f l -> exists i ci, (i < e_dim e)%nat /\ getitem e i = Some ci /\ dx1 co ci i = Some f).
  { intros f Hf. destruct (In_nth _ _ enull Hf) as (i & Hi' & E). rewrite Hl in Hi'. destruct (Hi i Hi') as (ci & A & B).
    rewrite E in B. exists i, ci. auto. }
  destruct (sum_list_spec L l s (e_dim e) Es) as (Ds & Ws & Ns & DDs & Ms).
  { intros f Hf. destruct (Hin f Hf) as (i & ci & _ & A & B). split; [eapply dx1_wf; eauto; eapply getitem_wf; eauto|].
    pose proof (dx1_spec _ _ _ _ B) as ((C & _) & _ & _). rewrite C. eapply getitem_sub; eauto. }
  assert (Hne : l <> []) by (intros ->; discriminate).
  rewrite simplify_dim, simplify_num. split; [exact Ds|]. split; [|split; [apply simplify_wf, Ws|]].
  { destruct l as [|f l']; [congruence|]. rewrite (Ns f (or_introl eq_refl)). cbn [hd].
    destruct (Hin f (or_introl eq_refl)) as (i & ci & _ & A & B).
    rewrite (dx1_num1 _ _ _ B). destruct (getitem_rank1 _ _ _ Rk A) as (_ & _ & _ & A2). unfold num_components. rewrite A2. reflexivity. }
  intros y Dy. assert (D1 : defined s y).
  { apply DDs. intros f Hf. destruct (Hin f Hf) as (i & ci & _ & A & B). eapply dx1_defined; eauto. eapply getitem_defined; eauto. }
  split; [apply simplify_ok, D1|]. intros U. rewrite simplify_mean by exact D1. rewrite Ms.
  rewrite (fold_right_nth (fun f => mean f 0 U y) enull l), Hl. apply rsum_ext. intros i Hi'.
  destruct (Hi i Hi') as (ci & A & B). pose proof (dx1_spec _ _ _ _ B) as (_ & _ & X). rewrite mean_mc, X.
  destruct (getitem_rank1 _ _ _ Rk A) as (_ & _ & _ & A2). unfold comp at 1. rewrite A2. reflexivity.
Qed.

(** *** div of a tensor *)
Lemma getitem_rank2 e i r : expr_rank e = Some 2%nat -> getitem e i = Some r ->
  e_dim r = e_dim e /\ (i < e_dim e)%nat /\ e_comps r = firstn (e_dim e) (skipn (i * e_dim e) (e_comps e)).
Proof.
  unfold getitem. destruct (Nat.leb_spec (e_dim e) i) as [|Hi]; [discriminate|]. intros -> H. cbn [obind] in H.
  injection H as <-. repeat split; auto.
Qed.
Lemma rank2_num e : wf e -> expr_rank e = Some 2%nat -> num_components e = (e_dim e * e_dim e)%nat /\ (1 < e_dim e)%nat.
Proof.
  unfold expr_rank. intros W H. destruct (Nat.eqb_spec (e_dim e) 1).
  - destruct (Nat.ltb_spec (num_components e) 3); [|discriminate]. injection H as H. lia.
  - destruct (Nat.eqb_spec (num_components e) 1); [discriminate|].
    destruct (e_comps e) as [|[|t c] l] eqn:E; try discriminate.
    assert (Hl : length (t_der t) = e_dim e) by (eapply W; [rewrite E; left; reflexivity|left; reflexivity]).
    rewrite Hl in H. destruct (Nat.eqb_spec (num_components e) (e_dim e)); [discriminate|].
    destruct (Nat.eqb_spec (num_components e) (e_dim e ^ 2)) as [E2|]; [|discriminate]. cbn in E2.
    assert (num_components e <> 0%nat) by (unfold num_components; rewrite E; discriminate).
    split; [lia|]. destruct (e_dim e) as [|[|k]]; lia.
Qed.
Lemma nth_firstn {A} (d : A) n : forall l j, (j < n)%nat -> nth j (firstn n l) d = nth j l d.
Proof. induction n as [|n IH]; intros l j H; [lia|]. destruct l as [|a l]; [destruct j; reflexivity|]. destruct j; cbn; [reflexivity|apply IH; lia]. Qed.
Lemma nth_skipn {A} (d : A) n : forall l j, nth j (skipn n l) d = nth (n + j) l d.
Proof. induction n as [|n IH]; intros l j; [reflexivity|]. destruct l as [|a l]; [destruct j; reflexivity|]. cbn. apply IH. Qed.

Lemma row_comp e i r j : expr_rank e = Some 2%nat -> getitem e i = Some r -> (j < e_dim e)%nat -> comp r j = comp e (i * e_dim e + j).
Proof.
  intros Rk G Hj. destruct (getitem_rank2 _ _ _ Rk G) as (_ & _ & A). unfold comp. rewrite A, nth_firstn, nth_skipn by exact Hj. reflexivity.
Qed.
Lemma div_vec_some_rank e d : div_vec_cart co e = Some d -> (0 < e_dim e)%nat -> exists q, expr_rank e = Some q.
Proof.
  unfold div_vec_cart. intros H Hd. destruct (e_dim e) as [|n] eqn:E; [lia|]. cbn [seq map opt_all obind] in H.
  unfold getitem at 1 in H. destruct (Nat.leb (e_dim e) 0); [discriminate|].
  destruct (expr_rank e) as [q|]; [exists q; reflexivity|discriminate].
Qed.
Lemma row_rank e i r q : wf e -> expr_rank e = Some 2%nat -> getitem e i = Some r -> expr_rank r = Some q -> q = 1%nat.
Proof.
  intros W Rk G Hq. destruct (rank2_num e W Rk) as [N D]. destruct (getitem_rank2 _ _ _ Rk G) as (Dr & Hi & A).
  assert (Nr : num_components r = e_dim e).
  { unfold num_components in *. rewrite A, firstn_length, skipn_length, N. nia. }
  pose proof (getitem_wf _ _ _ G W) as Wr. unfold expr_rank in Hq. rewrite Dr in Hq.
  destruct (Nat.eqb_spec (e_dim e) 1); [lia|]. rewrite Nr in Hq. destruct (Nat.eqb_spec (e_dim e) 1); [lia|].
  destruct (e_comps r) as [|[|t c] l] eqn:E; try discriminate.
  assert (Hl : length (t_der t) = e_dim r) by (eapply Wr; [rewrite E; left; reflexivity|left; reflexivity]).
  rewrite Hl, Dr, Nat.eqb_refl in Hq. congruence.
Qed.

Lemma div_tensor_at e d : unit_hi (e_dim e) -> wf e -> expr_rank e = Some 2%nat -> div co e = Some d ->
  e_dim d = e_dim e /\ num_components d = e_dim e /\ wf d /\
  (forall y, defined e y -> defined d y /\ forall i U, (i < e_dim e)%nat ->
     mean d i U y = rsum (e_dim e) (fun j => mc (dx_comp j (comp e (i * e_dim e + j))) U y)).
Proof.
  intros HU1 W Rk H. destruct (rank2_num e W Rk) as [N D]. unfold div in H. rewrite cart_true in H.
  destruct (Nat.eqb_spec (e_dim e) 1); [lia|].
  destruct (Nat.eqb_spec (num_components e) (e_dim e ^ 2)) as [_|C]; [|cbn in C; lia].
  destruct (opt_all _) as [l|] eqn:El; [|discriminate]. cbn [obind] in H.
  destruct (opt_all_seq _ _ _ enull El) as [Hl Hn].
  assert (Hi : forall i, (i < e_dim e)%nat -> exists r, getitem e i = Some r /\ div_vec_cart co r = Some (nth i l enull) /\
     wf r /\ e_dim r = e_dim e /\ expr_rank r = Some 1%nat).
  { intros i Hi. specialize (Hn i Hi). destruct (getitem e i) as [r|] eqn:G; [|discriminate]. exists r. split; [reflexivity|]. split; [exact Hn|].
    pose proof (getitem_wf _ _ _ G W) as Wr. destruct (getitem_rank2 _ _ _ Rk G) as (Dr & _ & _).
    destruct (div_vec_some_rank _ _ Hn) as [q Hq]; [lia|]. pose proof (row_rank _ _ _ _ W Rk G Hq). subst q. auto. }
  assert (Hin : forall f, In f l -> exists i, (i < e_dim e)%nat /\ f = nth i l enull).
  { intros f Hf. destruct (In_nth _ _ enull Hf) as (i & Hi' & E). exists i. split; [lia|auto]. }
  assert (HS : forall f, In f l -> wf f /\ e_dim f = e_dim e /\ num_components f = 1%nat).
  { intros f Hf. destruct (Hin f Hf) as (i & Hi' & ->). destruct (Hi i Hi') as (r & G & Dv & Wr & Dr & Rr).
    destruct (div_vec _ _ Wr Rr Dv) as (A & B & C & _). split; [exact C|]. split; congruence. }
  destruct (from_components_spec L co _ _ _ H HS) as (Dd & Nd & Wd & Md).
  split; [exact Dd|]. split; [congruence|]. split; [exact Wd|]. intros y Dy.
  destruct (Md y) as [D2 M2].
  { intros f Hf. destruct (Hin f Hf) as (i & Hi' & ->). destruct (Hi i Hi') as (r & G & Dv & Wr & Dr & Rr).
    destruct (div_vec _ _ Wr Rr Dv) as (_ & _ & _ & C). apply C. eapply getitem_defined; eauto. }
  { intros i Hi0. apply fac_one_at; [exact HU1|exact Hi0|apply Dy]. }
  split; [exact D2|]. intros i U Hi'. rewrite (M2 i U enull) by lia.
  destruct (fac_one_at (e_dim e) (length l) i y HU1 ltac:(lia) (proj1 Dy)) as [_ ->]. rewrite Rmult_1_r.
  destruct (Hi i Hi') as (r & G & Dv & Wr & Dr & Rr).
  destruct (div_vec _ _ Wr Rr Dv) as (_ & _ & _ & C). destruct (C y) as [_ M]; [eapply getitem_defined; eauto|].
  rewrite M, Dr. apply rsum_ext. intros j Hj. rewrite (row_comp _ _ _ _ Rk G Hj). reflexivity.
Qed.

(** *** curl *)
Lemma curl_comp e a b w : wf e -> expr_rank e = Some 1%nat -> curl_comp_cart co e a b = Some w ->
  e_dim w = e_dim e /\ num_components w = 1%nat /\ wf w /\ (a < e_dim e)%nat /\ (b < e_dim e)%nat /\
  (forall y, defined e y -> defined w y /\ forall U, mean w 0 U y = mc (dx_comp a (comp e b)) U y - mc (dx_comp b (comp e a)) U y).
Proof.
  intros W Rk H. unfold curl_comp_cart in H.
  destruct (getitem e b) as [eb|] eqn:Gb; [|discriminate]. cbn [obind] in H.
  destruct (dx1 co eb a) as [da|] eqn:Da; [|discriminate]. cbn [obind] in H.
  destruct (getitem e a) as [ea|] eqn:Ga; [|discriminate]. cbn [obind] in H.
  destruct (dx1 co ea b) as [db|] eqn:Db; [|discriminate]. cbn [obind] in H.
  destruct (getitem_rank1 _ _ _ Rk Gb) as (B1 & B2 & _ & B4). destruct (getitem_rank1 _ _ _ Rk Ga) as (A1 & A2 & _ & A4).
  pose proof (dx1_spec _ _ _ _ Da) as ((X1 & X2) & _ & X3). pose proof (dx1_spec _ _ _ _ Db) as ((Y1 & Y2) & _ & Y3).
  pose proof (sub_spec _ _ _ H) as ((Z1 & Z2) & _ & _).
  assert (Wa : wf da) by (eapply dx1_wf; eauto; eapply getitem_wf; eauto).
  assert (Wb : wf db) by (eapply dx1_wf; eauto; eapply getitem_wf; eauto).
  split; [congruence|]. split; [rewrite Z2, X2; unfold num_components; rewrite B4; reflexivity|].
  split; [eapply sub_wf; eauto; congruence|]. split; [exact A2|]. split; [exact B2|].
  intros y Dy. split.
  - eapply sub_defined; eauto; eapply dx1_defined; eauto; eapply getitem_defined; eauto.
  - intros U. rewrite (sub_mean L _ _ _ 0 U y H), !mean_mc, X3, Y3. 
    assert (Qb : comp eb 0 = comp e b) by (unfold comp at 1; rewrite B4; reflexivity).
    assert (Qa : comp ea 0 = comp e a) by (unfold comp at 1; rewrite A4; reflexivity).
    rewrite Qa, Qb. reflexivity.
Qed.

Definition curl3 e (k : nat) : nat * nat := match k with O => (1, 2)%nat | 1%nat => (2, 0)%nat | _ => (0, 1)%nat end.

Lemma single_comps e : num_components e = 1%nat -> e_comps e = [comp e 0].
Proof. unfold num_components, comp. destruct (e_comps e) as [|c [|c' l]]; cbn; intros; try lia. reflexivity. Qed.

Lemma curl_3d_at e w : wf e -> expr_rank e = Some 1%nat -> e_dim e = 3%nat -> curl co e = Some w ->
  e_dim w = 3%nat /\ num_components w = 3%nat /\ wf w /\
  (forall y, defined e y -> defined w y /\ forall U,
     mean w 0 U y = mc (dx_comp 1 (comp e 2)) U y - mc (dx_comp 2 (comp e 1)) U y /\
     mean w 1 U y = mc (dx_comp 2 (comp e 0)) U y - mc (dx_comp 0 (comp e 2)) U y /\
     mean w 2 U y = mc (dx_comp 0 (comp e 1)) U y - mc (dx_comp 1 (comp e 0)) U y).
Proof.
  intros W Rk D H. unfold curl in H. rewrite cart_true, D in H. cbn [Nat.eqb] in H.
  destruct (curl_comp_cart co e 1 2) as [w0|] eqn:E0; [|discriminate]. cbn [obind] in H.
  destruct (curl_comp_cart co e 2 0) as [w1|] eqn:E1; [|discriminate]. cbn [obind] in H.
  destruct (curl_comp_cart co e 0 1) as [w2|] eqn:E2; [|discriminate]. cbn [obind] in H.
  apply some_inj in H.
  destruct (curl_comp _ _ _ _ W Rk E0) as (P1 & P2 & P3 & _ & _ & P4).
  destruct (curl_comp _ _ _ _ W Rk E1) as (Q1 & Q2 & Q3 & _ & _ & Q4).
  destruct (curl_comp _ _ _ _ W Rk E2) as (R1 & R2 & R3 & _ & _ & R4).
  rewrite (single_comps _ P2), (single_comps _ Q2), (single_comps _ R2) in H. cbn [app] in H.
  set (v := mkExpr 3 [comp w0 0; comp w1 0; comp w2 0]) in *. rewrite H, simplify_dim, simplify_num.
  split; [reflexivity|]. split; [reflexivity|]. split.
  - apply simplify_wf. intros c Hc t Ht. cbn in Hc. cbn [e_dim v]. rewrite D in P1, Q1, R1.
    destruct Hc as [<-|[<-|[<-|[]]]]; [rewrite <- P1|rewrite <- Q1|rewrite <- R1]; eapply wf_comp; eauto.
  - intros y Dy. destruct (P4 y Dy) as [Pd Pm]. destruct (Q4 y Dy) as [Qd Qm]. destruct (R4 y Dy) as [Rd Rm].
    assert (Dv : defined v y).
    { split; [apply Dy|]. intros c Hc. cbn in Hc. destruct Hc as [<-|[<-|[<-|[]]]]; apply (defined_comp L); assumption. }
    split; [apply simplify_ok, Dv|]. intros U. rewrite !simplify_mean by exact Dv.
    split; [exact (Pm U)|split; [exact (Qm U)|exact (Rm U)]].
Qed.

Lemma curl_2d_vector_at e w : wf e -> expr_rank e = Some 1%nat -> e_dim e = 2%nat -> curl co e = Some w ->
  e_dim w = 2%nat /\ num_components w = 1%nat /\ wf w /\
  (forall y, defined e y -> defined w y /\ forall U,
     mean w 0 U y = mc (dx_comp 0 (comp e 1)) U y - mc (dx_comp 1 (comp e 0)) U y).
Proof.
  intros W Rk D H. unfold curl in H. rewrite cart_true, D, Rk in H. cbn [Nat.eqb obind Nat.ltb Nat.leb] in H.
  destruct (curl_comp_cart co e 0 1) as [w2|] eqn:E2; [|discriminate]. cbn [obind] in H. apply some_inj in H.
  destruct (curl_comp _ _ _ _ W Rk E2) as (R1 & R2 & R3 & _ & _ & R4). rewrite H, simplify_dim, simplify_num.
  split; [congruence|]. split; [exact R2|]. split; [apply simplify_wf, R3|]. intros y Dy. destruct (R4 y Dy) as [Rd Rm].
  split; [apply simplify_ok, Rd|]. intros U. rewrite simplify_mean by exact Rd. apply Rm.
Qed.

Lemma curl_2d_scalar_at e w : unit_hi (e_dim e) -> wf e -> num_components e = 1%nat -> e_dim e = 2%nat -> curl co e = Some w ->
  e_dim w = 2%nat /\ num_components w = 2%nat /\ wf w /\
  (forall y, defined e y -> defined w y /\ forall U,
     mean w 0 U y = mc (dx_comp 1 (comp e 0)) U y /\ mean w 1 U y = - mc (dx_comp 0 (comp e 0)) U y).
Proof.
  intros HU1 W N D H. pose proof HU1 as HU2. rewrite D in HU2. unfold curl in H. rewrite cart_true, D in H. cbn [Nat.eqb] in H.
  assert (Rk : expr_rank e = Some 0%nat) by (unfold expr_rank; rewrite D, N; reflexivity).
  rewrite Rk in H. cbn [Nat.eqb obind Nat.ltb Nat.leb] in H.
  destruct (dx1 co e 1) as [d1|] eqn:E1; [|discriminate]. cbn [obind] in H.
  destruct (dx1 co e 0) as [d0|] eqn:E0; [|discriminate]. cbn [obind] in H.
  destruct (from_components co 2 [d1; neg d0]) as [v|] eqn:Ev; [|discriminate]. cbn [obind] in H. apply some_inj in H.
  pose proof (dx1_spec _ _ _ _ E1) as ((A1 & A2) & _ & A3). pose proof (dx1_spec _ _ _ _ E0) as ((B1 & B2) & _ & B3).
  destruct (neg_like d0) as [C1 C2].
  assert (HS : forall f, In f [d1; neg d0] -> wf f /\ e_dim f = 2%nat /\ num_components f = 1%nat).
  { intros f [<-|[<-|[]]].
    - split; [eapply dx1_wf; eauto|]. split; congruence.
    - split; [apply neg_wf; eapply dx1_wf; eauto|]. split; congruence. }
  destruct (from_components_spec L co _ _ _ Ev HS) as (Dd & Nd & Wd & Md). rewrite H, simplify_dim, simplify_num.
  split; [exact Dd|]. split; [exact Nd|]. split; [apply simplify_wf, Wd|]. intros y Dy. destruct (Md y) as [D2 M2].
  { intros f [<-|[<-|[]]]; [eapply dx1_defined; eauto|apply neg_defined; eapply dx1_defined; eauto]. }
  { intros i Hi0. apply fac_one_at; [rewrite <- D; exact HU1|exact Hi0|apply Dy]. }
  split; [apply simplify_ok, D2|]. intros U. rewrite !simplify_mean by exact D2.
  rewrite (M2 0%nat U enull), (M2 1%nat U enull) by (cbn; lia).
  destruct (fac_one_at 2 (length [d1; neg d0]) 0 y HU2 ltac:(cbn; lia) (proj1 Dy)) as [_ ->]. destruct (fac_one_at 2 (length [d1; neg d0]) 1 y HU2 ltac:(cbn; lia) (proj1 Dy)) as [_ ->].
  cbn [nth]. rewrite neg_mean, !mean_mc, A3, B3. split; ring.
Qed.
End P.

(** the same with the factors 1 in all directions *)
Section All.
Context {S : Sym} (L : SymLaws S) (co : coords S).
Hypothesis HC : cartesian L co.
Lemma cart_hi d : unit_hi L co d. Proof. intros i y _. apply HC. Qed.
Definition grad_scalar (e g : expr S) := grad_scalar_at L co (proj1 HC) e g (cart_hi (e_dim e)).
Definition grad_vector (e g : expr S) := grad_vector_at L co (proj1 HC) e g (cart_hi (e_dim e)).
Definition div_tensor (e g : expr S) := div_tensor_at L co (proj1 HC) e g (cart_hi (e_dim e)).
Definition curl_2d_scalar (e g : expr S) := curl_2d_scalar_at L co (proj1 HC) e g (cart_hi (e_dim e)).
Definition curl_3d (e g : expr S) := curl_3d_at L co (proj1 HC) e g.
Definition curl_2d_vector (e g : expr S) := curl_2d_vector_at L co (proj1 HC) e g.
End All.
