(** InnerProofs5.v -- linear forms. *)
From Coq Require Import Reals ZArith List Bool Arith Lia Lra String.
From Verif Require Import Base FormsModel FormsSpec FormsProofs FormsProofs2 FormsProofs3 InnerModel InnerSpec InnerProofs InnerProofs2 InnerProofs3 InnerProofs4.
Import ListNotations.
Local Open Scope R_scope.
Local Notation length := List.length.
Local Notation rsum := FormsSpec.rsum.

Lemma fold_lsum {A} (f : A -> R) l : fold_right Rplus 0 (map f l) = lsum l f.
Proof. induction l as [|a l IH]; [reflexivity|]. cbn [map fold_right]. rewrite lsum_cons, IH. reflexivity. Qed.

Lemma colsum_ext n cl : forall i f g,
  (forall l, length l = n -> (forall j, (j < n)%nat -> In (cnth l j) (cl (i + j)%nat)) -> f l = g l) -> colsum i n cl f = colsum i n cl g.
Proof.
  induction n as [|n IH]; intros i f g H; cbn [colsum].
  - apply H; [reflexivity|]. lia.
  - apply lsum_ext. intros c Hc. apply IH. intros l Hl Hin. apply H; [cbn; lia|].
    intros [|j] Hj; [rewrite Nat.add_0_r; exact Hc|]. cbn [cnth nth]. replace (i + Datatypes.S j)%nat with (i + 1 + j)%nat by lia.
    apply Hin. lia.
Qed.
Lemma colsum_scal n cl c : forall i f, colsum i n cl (fun l => c * f l) = c * colsum i n cl f.
Proof.
  induction n as [|n IH]; intros i f; cbn [colsum]; [reflexivity|]. rewrite <- lsum_scal. apply lsum_ext. intros a _. apply IH.
Qed.
Lemma colsum_add n cl : forall i f g, colsum i n cl (fun l => f l + g l) = colsum i n cl f + colsum i n cl g.
Proof.
  induction n as [|n IH]; intros i f g; cbn [colsum]; [reflexivity|]. rewrite <- lsum_add. apply lsum_ext. intros a _. apply IH.
Qed.
Lemma colsum_zero n cl : forall i, colsum i n cl (fun _ => 0) = 0.
Proof. induction n as [|n IH]; intros i; cbn [colsum]; [reflexivity|]. apply lsum_zero. intros. apply IH. Qed.
Lemma colsum_lsum {A} (m : list A) n cl i (f : A -> list (space * nat) -> R) :
  colsum i n cl (fun l => lsum m (fun a => f a l)) = lsum m (fun a => colsum i n cl (f a)).
Proof.
  induction m as [|a m IH].
  - rewrite lsum_nil. apply colsum_zero.
  - rewrite lsum_cons, <- IH, <- colsum_add. reflexivity.
Qed.
Lemma colsum_rsum m n cl i (f : nat -> list (space * nat) -> R) :
  colsum i n cl (fun l => rsum m (fun a => f a l)) = rsum m (fun a => colsum i n cl (f a)).
Proof.
  induction m as [|m IH]; cbn [FormsSpec.rsum]; [apply colsum_zero|]. rewrite <- IH, <- colsum_add. reflexivity.
Qed.
Lemma gridsum_colsum m n cl i (q : nat -> rule) j x (f : list (space * nat) -> pt -> R) :
  gridsum i m q (fun y => colsum j n cl (fun l => f l y)) x = colsum j n cl (fun l => gridsum i m q (f l) x).
Proof.
  revert j f. induction n as [|n IH]; intros j f; cbn [colsum]; [reflexivity|].
  rewrite gridsum_lsum. apply lsum_ext. intros c _. apply IH.
Qed.

Lemma prod_entry_ext ms k : forall i l l', (forall j, (i <= j < i + length ms)%nat -> l j = l' j) -> prod_entry i ms k l = prod_entry i ms k l'.
Proof.
  induction ms as [|m ms IH]; intros i l l' H; [reflexivity|]. cbn [prod_entry length] in *. rewrite (H i) by lia. f_equal.
  apply IH. intros j Hj. apply H. lia.
Qed.
Lemma rsum_delta n c (f : nat -> R) : (c < n)%nat -> rsum n (fun i => if Nat.eqb i c then f i else 0) = f c.
Proof.
  induction n as [|n IH]; [lia|]. intros H. cbn [FormsSpec.rsum]. destruct (Nat.eqb_spec n c) as [->|N].
  - rewrite (rsum_ext c _ (fun _ => 0)), rsum_0; [ring|]. intros i Hi. destruct (Nat.eqb_spec i c); [lia|reflexivity].
  - rewrite IH by lia. ring.
Qed.

Section Apply.
Variable bcspace : space -> option space.
Hypothesis Hne : forall s t, bcspace s = Some t -> t <> s.
Variable n : space -> nat.

Lemma columns_pick (m : mat) ts k0 (F : space * nat -> R) : (m_trial m = ts \/ bcspace ts = Some (m_trial m)) ->
  lsum (columns1 bcspace n ts) (fun c => (if Nat.eqb (m_trial m) (fst c) then m_ent m k0 (snd c) else 0) * F c)
  = lsum (seq 0 (n (m_trial m))) (fun j => m_ent m k0 j * F (m_trial m, j)).
Proof.
  intros H. unfold columns1. rewrite lsum_app, lsum_map.
  assert (Hz : forall s, m_trial m <> s -> forall l, lsum (map (pair s) l) (fun c => (if Nat.eqb (m_trial m) (fst c) then m_ent m k0 (snd c) else 0) * F c) = 0).
  { intros s N l. rewrite lsum_map. apply lsum_zero. intros a _. cbn [fst snd]. apply Nat.eqb_neq in N. rewrite N. ring. }
  assert (He : forall l, lsum l (fun j => (if Nat.eqb (m_trial m) (fst (m_trial m, j)) then m_ent m k0 (snd (m_trial m, j)) else 0) * F (m_trial m, j))
               = lsum l (fun j => m_ent m k0 j * F (m_trial m, j))).
  { intros l. apply lsum_ext. intros a _. cbn [fst snd]. now rewrite Nat.eqb_refl. }
  destruct H as [<- | E].
  - rewrite He. destruct (bcspace (m_trial m)) as [t|] eqn:Et.
    + rewrite Hz; [ring|]. apply not_eq_sym. now apply Hne.
    + rewrite lsum_nil. ring.
  - rewrite E. rewrite <- (lsum_map (pair ts) _ (fun c => (if Nat.eqb (m_trial m) (fst c) then m_ent m k0 (snd c) else 0) * F c)).
    rewrite Hz by (now apply Hne). rewrite lsum_map, He. ring.
Qed.

Lemma apply_colsum ts k : forall ms i v,
  (forall j, (j < length ms)%nat -> m_trial (nth j ms mdef) = ts (i + j)%nat \/ bcspace (ts (i + j)%nat) = Some (m_trial (nth j ms mdef))) ->
  apply_mats i ms k n v = colsum i (length ms) (fun j => columns1 bcspace n (ts j)) (fun l => prod_entry i ms k (fun j => cnth l (j - i)) * v l).
Proof.
  induction ms as [|m ms IH]; intros i v H; cbn [apply_mats length colsum].
  - cbn. ring.
  - rewrite fold_lsum.
    transitivity (lsum (columns1 bcspace n (ts i)) (fun c => (if Nat.eqb (m_trial m) (fst c) then m_ent m (k i) (snd c) else 0)
       * colsum (i + 1) (length ms) (fun j => columns1 bcspace n (ts j)) (fun l => prod_entry (i + 1) ms k (fun j => cnth l (j - (i + 1))) * v (c :: l)))).
    + rewrite columns_pick.
      2:{ specialize (H 0%nat). cbn [nth length] in H. rewrite Nat.add_0_r in H. apply H. lia. }
      apply lsum_ext. intros j _. f_equal. rewrite IH; [reflexivity|].
      intros a Ha. specialize (H (Datatypes.S a)). cbn [nth length] in H.
      replace (i + 1 + a)%nat with (i + Datatypes.S a)%nat by lia. apply H. lia.
    + apply lsum_ext. intros c _. rewrite <- colsum_scal. apply colsum_ext. intros l Hl _.
      cbn [prod_entry]. rewrite Nat.sub_diag. change (cnth (c :: l) 0) with c.
      rewrite (prod_entry_ext ms k (i + 1) (fun j => cnth (c :: l) (j - i)) (fun j => cnth l (j - (i + 1)))).
      * ring.
      * intros j Hj. replace (j - i)%nat with (Datatypes.S (j - (i + 1))) by lia. reflexivity.
Qed.
End Apply.

(** ** The shape of the matrices *)
Section Shape.
Context {S : Sym} (L : SymLaws S).
Variable phi : space -> nat -> nat -> R -> R.
Variable quad : space -> rule.
Variable mval : S -> R -> R.
Variable split : S -> option (list (dict S)).
Variable ip : space -> nat -> space -> nat -> S -> option mat.
Variable bcspace : space -> option space.
Variable co : coords S.
Variable gij : nat -> nat -> S.
Variable dim : nat.
Hypothesis Hip : ip_law phi quad mval ip.
Hypothesis Hbc : bc_law bcspace ip.
Hypothesis Hdim : (dim <= 5)%nat.
Variables (tsp usp : nat -> nat -> space).
Hypothesis Hcount : forall q, (count_bc bcspace (usp q) dim <= 1)%nat \/ dim = 2%nat.

Definition allowed (ts : nat -> space) (ms : list mat) : Prop :=
  length ms = dim /\ forall j, (j < dim)%nat -> m_trial (nth j ms mdef) = ts j \/ bcspace (ts j) = Some (m_trial (nth j ms mdef)).

Lemma item_allowed p q tt ts b0 b1 dv A : length b0 = dim -> length b1 = dim ->
  ((count_bc bcspace ts dim <= 1)%nat \/ dim = 2%nat) ->
  item_mats ip bcspace p q tt ts b0 b1 dv = Some A -> forall m, In m A -> allowed ts (p_mats m).
Proof.
  intros H0 H1 Hc. unfold item_mats.
  destruct (all_axes ip bcspace 0 tt ts b0 b1 dv) as [r|] eqn:Er; [|discriminate].
  pose proof (all_axes_spec phi quad mval ip bcspace dim Hip Hdim tt ts dv b0 b1 0 r ltac:(congruence) ltac:(lia) Er) as Hr.
  destruct r as [xs|]; [|intros E; injection E as <-; intros m []].
  destruct (Req_EM_T (d_coeff dv) 0); [intros E; injection E as <-; intros m []|].
  destruct (bc_mats bcspace (d_coeff dv) p q ts xs) as [bcs|] eqn:Eb; [|discriminate].
  intros E. injection E as <-. destruct Hr as [Hlen Hax]. rewrite H0 in Hlen, Hax. cbn [Nat.add] in Hax.
  assert (HM : forall j, (j < dim)%nat -> m_trial (fst (nth j xs xd)) = ts j).
  { intros j Hj. destruct (Hax j Hj xd) as [E _]. exact E. }
  assert (HD : forall j B, (j < dim)%nat -> fst (snd (nth j xs xd)) = Some B -> m_trial B = ts j \/ bcspace (ts j) = Some (m_trial B)).
  { intros j B Hj EB. destruct (Hax j Hj xd) as [E [_ H]]. destruct (bcspace (ts j)) as [tsc|].
    - right. destruct H as [[B' [Es [Et _]]]|[Es _]]; rewrite Es in EB; cbn in EB; [|discriminate]. injection EB as <-. now rewrite Et.
    - left. rewrite H in EB. cbn in EB. injection EB as <-. exact E. }
  assert (Hdm : forall d, dm_list xs = Some d -> allowed ts d).
  { intros d Hd. destruct (dm_nth dim Hdim xs Hlen d Hd) as [Hl Hn]. split; [exact Hl|]. intros j Hj. apply HD; [exact Hj|]. now apply Hn. }
  intros m [<-|Hm].
  - cbn [p_mats]. split; [now rewrite map_length|]. intros j Hj. left.
    rewrite (nth_indep _ _ (fst xd)) by (rewrite map_length; lia). rewrite map_nth. now apply HM.
  - unfold bc_mats in Eb. rewrite Hlen in Eb.
    destruct (existsb _ xs); [|injection Eb as <-; destruct Hm].
    destruct (dim =? 1)%nat.
    { destruct (dm_list xs) as [d|] eqn:Ed; [|discriminate]. injection Eb as <-. destruct Hm as [<-|[]]. cbn. now apply Hdm. }
    destruct (count_bc bcspace ts dim) as [|[|[|c]]].
    + injection Eb as <-. destruct Hm.
    + destruct (dm_list xs) as [d|] eqn:Ed; [|discriminate]. injection Eb as <-. destruct Hm as [<-|[]]. cbn. now apply Hdm.
    + destruct Hc as [Hc|D2]; [lia|].
      destruct xs as [|[m0 [d0 f0]] [|[m1 [d1 f1]] [|x2 r]]]; cbn [List.length] in Hlen; try lia.
      pose proof (HM 0%nat ltac:(lia)) as M0. pose proof (HM 1%nat ltac:(lia)) as M1.
      pose proof (HD 0%nat) as D0. pose proof (HD 1%nat) as D1. cbn [nth fst snd] in *.
      assert (Hal : forall a b, (m_trial a = ts 0%nat \/ bcspace (ts 0%nat) = Some (m_trial a)) -> (m_trial b = ts 1%nat \/ bcspace (ts 1%nat) = Some (m_trial b)) -> allowed ts [a; b]).
      { intros a b Ha Hb. split; [cbn; lia|]. intros [|[|j]] Hj; cbn; try assumption. lia. }
      injection Eb as <-.
      apply in_app_or in Hm. destruct Hm as [Hm|Hm].
      { destruct d1 as [d1|]; [|destruct Hm]. destruct Hm as [<-|[]]. cbn [p_mats]. apply Hal; [now left|apply D1; [lia|reflexivity]]. }
      apply in_app_or in Hm. destruct Hm as [Hm|Hm].
      { destruct d0 as [d0|]; [|destruct Hm]. destruct Hm as [<-|[]]. cbn [p_mats]. apply Hal; [apply D0; [lia|reflexivity]|now left]. }
      destruct d0 as [d0|]; [|destruct Hm]. destruct d1 as [d1|]; [|destruct Hm].
      destruct (dm_list _) as [d|] eqn:Ed in Hm; [|destruct Hm]. destruct Hm as [<-|[]]. cbn [p_mats]. now apply Hdm.
    + injection Eb as <-. destruct Hm.
Qed.

(** every matrix comes from a term of the test expression and a term of the trial expression *)
Definition shape (test trial : expr S) (m : tpm) : Prop :=
  term_of test (p_row m) /\ term_of trial (p_col m) /\ allowed (usp (p_col m)) (p_mats m).

Lemma concat_opt_in {A} (l : list (option (list A))) r x : concat_opt l = Some r -> In x r -> exists s, In (Some s) l /\ In x s.
Proof.
  intros H Hx. apply concat_opt_some in H. destruct H as [rs [E ->]]. apply in_concat in Hx.
  destruct Hx as [s [Hs Hx]]. exists s. split; [rewrite E; now apply in_map|exact Hx].
Qed.

Lemma inner_shape test trial A : wf test -> e_dim test = dim -> inner_mats split ip bcspace co gij tsp usp test trial = Some A ->
  forall m, In m A -> shape test trial m.
Proof.
  intros Hw Hd. unfold inner_mats.
  destruct (expr_rank test) as [rt|]; [|discriminate]. cbn [obind].
  destruct (expr_rank trial) as [ru|]; [|discriminate]. cbn [obind].
  destruct (rt =? ru); [|discriminate]. cbn [negb]. intros H m Hm.
  destruct (concat_opt_in _ _ _ H Hm) as [s [Hs Hms]]. clear H Hm A.
  apply in_flat_map in Hs. destruct Hs as [i [Hi Hs]]. apply in_map_iff in Hs. destruct Hs as [j [Ej Hj]].
  apply in_seq in Hi. apply in_seq in Hj.
  unfold comps_mats in Ej. destruct (metric _ _ _ _ _) as [g|]; [|discriminate].
  destruct (s_is0 g); [injection Ej as <-; destruct Hms|].
  destruct (concat_opt_in _ _ _ Ej Hms) as [s2 [Hs2 Hms2]]. clear Ej Hms s.
  apply in_flat_map in Hs2. destruct Hs2 as [t [Ht Hs2]]. apply in_map_iff in Hs2. destruct Hs2 as [u [Eu Hu]].
  assert (Htc : In (nth i (e_comps test) []) (e_comps test)) by (apply nth_In; unfold num_components in *; lia).
  assert (Huc : In (nth j (e_comps trial) []) (e_comps trial)) by (apply nth_In; unfold num_components in *; lia).
  assert (Hlt : length (t_der t) = dim) by (rewrite <- Hd; eapply Hw; eassumption).
  unfold pair_mats in Eu. destruct (Nat.eqb_spec (length (t_der t)) (length (t_der u))) as [El|]; [|discriminate]. cbn [negb] in Eu.
  destruct (s_is0 _); [injection Eu as <-; destruct Hms2|].
  destruct (split _) as [items|]; [|discriminate].
  destruct (concat_opt_in _ _ _ Eu Hms2) as [s3 [Hs3 Hms3]]. apply in_map_iff in Hs3. destruct Hs3 as [dv [Ed _]].
  destruct (item_rows ip bcspace _ _ _ _ _ _ _ _ Ed m Hms3) as [Er Ec].
  unfold shape. rewrite Er, Ec. split; [|split].
  - exists (nth i (e_comps test) []), t. auto.
  - exists (nth j (e_comps trial) []), u. auto.
  - eapply item_allowed; [| |apply Hcount|exact Ed|exact Hms3]; congruence.
Qed.

Lemma term_of_mul (e : expr S) a c : term_of (mul e a) c -> term_of e c.
Proof.
  intros [cc [t [H1 [H2 H3]]]]. cbn in H1. apply in_map_iff in H1. destruct H1 as [c' [<- H1]].
  apply in_map_iff in H2. destruct H2 as [t' [<- H2]]. exists c', t'. auto.
Qed.
Lemma term_of_getitem (e : expr S) i e' c : getitem e i = Some e' -> term_of e' c -> term_of e c.
Proof.
  intros H [cc [t [H1 [H2 H3]]]]. apply getitem_sub in H. destruct H as [_ H]. exists cc, t. auto.
Qed.
End Shape.
