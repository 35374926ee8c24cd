(** InnerProofs6.v -- the linear form is the form with the Function. *)
From Coq Require Import Reals ZArith List Bool Arith Lia Lra String.
From Verif Require Import Base FormsModel FormsSpec FormsProofs FormsProofs2 FormsProofs3 InnerModel InnerSpec InnerProofs InnerProofs2 InnerProofs3 InnerProofs4 InnerProofs5.
Import ListNotations.
Local Open Scope R_scope.
Local Notation length := List.length.
Local Notation rsum := FormsSpec.rsum.

Section Form.
Context {S : Sym} (L : SymLaws S).
Variable phi : space -> nat -> nat -> R -> R.
Variable quad : space -> rule.
Variable mval : S -> R -> R.
Variable split : S -> option (list (dict S)).
Variable ip : space -> nat -> space -> nat -> S -> option mat.
Variable bcspace : space -> option space.
Variable co : coords S.
Variable gij : nat -> nat -> S.
Variable dim : nat.
Hypothesis Hip : ip_law phi quad mval ip.
Hypothesis Hbc : bc_law bcspace ip.
Hypothesis Hsplit : split_law L mval dim axis_names split.
Hypothesis Hdim : (dim <= 5)%nat.
Variables (tsp usp : nat -> nat -> space).
Hypothesis Hcount : forall q, (count_bc bcspace (usp q) dim <= 1)%nat \/ dim = 2%nat.
Variables (p : nat) (k : nat -> nat) (n : space -> nat) (uhat : nat -> list (space * nat) -> R) (nq : nat).

Notation Q := (fun i => quad (tsp p i)).
Notation U := (basis phi dim (tsp p) p k).
Notation ev := (ev L). Notation good := (good L).
Notation gridok := (grid_ok L quad co gij dim tsp p).
Notation g := (fun i j x => ev (gij i j) x).
Notation cols q := (fun i => columns1 bcspace n (usp q i)).
Definition Wq (q : nat) (l : list (space * nat)) := basis phi dim (fun i => fst (cnth l i)) q (fun i => snd (cnth l i)).
Definition Wsum (c : nat) (ders : list nat) (x : pt) : R :=
  rsum nq (fun q => colsum 0 dim (cols q) (fun l => uhat q l * Wq q l c ders x)).

Lemma Wsum_expansion c ders x : (c < nq)%nat -> Wsum c ders x = expansion phi bcspace dim usp n uhat c ders x.
Proof.
  intros Hc. unfold Wsum.
  rewrite (rsum_ext nq _ (fun q => if Nat.eqb q c then expansion phi bcspace dim usp n uhat q ders x else 0)).
  - now apply (rsum_delta nq c (fun q => expansion phi bcspace dim usp n uhat q ders x)).
  - intros q _. unfold Wq, basis. rewrite (Nat.eqb_sym c q). destruct (Nat.eqb_spec q c) as [->|N].
    + reflexivity.
    + etransitivity; [|apply (colsum_zero dim (cols q) 0)]. apply colsum_ext. intros. ring.
Qed.

(** linearity of the form in the trial function *)
Lemma mean_comp_cons (t : term S) c V x : mean_comp L (t :: c) V x = ev (t_sc t) x * V (t_ind t) (t_der t) x + mean_comp L c V x.
Proof. reflexivity. Qed.
Lemma mean_comp_nil V x : mean_comp L [] V x = 0.
Proof. reflexivity. Qed.
Lemma mean_comp_sum c x : mean_comp L c Wsum x = rsum nq (fun q => colsum 0 dim (cols q) (fun l => uhat q l * mean_comp L c (Wq q l) x)).
Proof.
  induction c as [|t c IH].
  - change (mean_comp L [] Wsum x) with 0. symmetry. rewrite (rsum_ext nq _ (fun _ => 0)), rsum_0; [reflexivity|].
    intros q _. etransitivity; [|apply (colsum_zero dim (cols q) 0)]. apply colsum_ext. intros. rewrite mean_comp_nil. ring.
  - rewrite mean_comp_cons, IH. unfold Wsum.
    rewrite <- rsum_scal, <- rsum_plus. apply rsum_ext. intros q _.
    rewrite <- colsum_scal, <- colsum_add. apply colsum_ext. intros l _ _. rewrite mean_comp_cons. ring.
Qed.
Lemma mean_comp_ind c V V' x : (forall t, In t c -> forall d y, V (t_ind t) d y = V' (t_ind t) d y) -> mean_comp L c V x = mean_comp L c V' x.
Proof.
  induction c as [|t c IH]; intros H; [reflexivity|]. rewrite !mean_comp_cons. rewrite IH by (intros; apply H; now right).
  rewrite (H t) by now left. reflexivity.
Qed.

Definition lin (F : (nat -> list nat -> pt -> R) -> R) : Prop :=
  F Wsum = rsum nq (fun q => colsum 0 dim (cols q) (fun l => uhat q l * F (Wq q l))).
Lemma lin_scal c F : lin F -> lin (fun V => c * F V).
Proof.
  unfold lin. intros ->. rewrite <- rsum_scal. apply rsum_ext. intros q _. rewrite <- colsum_scal. apply colsum_ext. intros. ring.
Qed.
Lemma lin_rsum m F : (forall i, lin (F i)) -> lin (fun V => rsum m (fun i => F i V)).
Proof.
  intros H. unfold lin. induction m as [|m IH]; cbn [FormsSpec.rsum].
  - symmetry. rewrite (rsum_ext nq _ (fun _ => 0)), rsum_0; [reflexivity|].
    intros q _. etransitivity; [|apply (colsum_zero dim (cols q) 0)]. apply colsum_ext. intros. ring.
  - rewrite IH, (H m), <- rsum_plus. apply rsum_ext. intros q _. rewrite <- colsum_add. apply colsum_ext. intros. ring.
Qed.
Lemma lin_mean e i x : lin (fun V => mean L e i V x).
Proof. unfold lin, mean. apply mean_comp_sum. Qed.
Lemma lin_ext F G : (forall V, F V = G V) -> lin F -> lin G.
Proof.
  unfold lin. intros H HF. rewrite <- H, HF. apply rsum_ext. intros q _. apply colsum_ext. intros. now rewrite H.
Qed.

Lemma lin_contraction r gg test trial x : lin (fun V => contraction L r dim gg test trial U V x).
Proof.
  unfold contraction. destruct r as [|[|r]].
  - apply lin_scal, lin_mean.
  - apply lin_rsum. intros i. apply lin_rsum. intros j.
    apply (lin_ext (fun V => (gg i j x * mean L test i U x) * mean L trial j V x)); [intros; ring|]. apply lin_scal, lin_mean.
  - apply lin_rsum. intros i. apply lin_rsum. intros j. apply lin_rsum. intros a. apply lin_rsum. intros b.
    apply (lin_ext (fun V => (gg i a x * gg j b x * mean L test (i * dim + j) U x) * mean L trial (a * dim + b) V x)); [intros; ring|].
    apply lin_scal, lin_mean.
Qed.

Variables (test trial : expr S) (r : nat).
Hypothesis Hwt : wf test.
Hypothesis Hwu : wf trial.
Hypothesis Hdt : e_dim test = dim.
Hypothesis Hdu : e_dim trial = dim.
Hypothesis Hrt : expr_rank test = Some r.
Hypothesis Hru : expr_rank trial = Some r.
Hypothesis Hg : gridok test trial.
Hypothesis Hnq : forall c, term_of trial c -> (c < nq)%nat.

Lemma mean_expansion i x : mean L trial i Wsum x = mean L trial i (expansion phi bcspace dim usp n uhat) x.
Proof.
  unfold mean. apply mean_comp_ind. intros t Ht d y. apply Wsum_expansion. apply Hnq.
  destruct (Nat.lt_ge_cases i (length (e_comps trial))) as [Hi|Hi].
  - exists (nth i (e_comps trial) []), t. split; [now apply nth_In|auto].
  - rewrite nth_overflow in Ht by exact Hi. destruct Ht.
Qed.
Lemma contraction_expansion x : contraction L r dim g test trial U Wsum x =
  contraction L r dim g test trial U (expansion phi bcspace dim usp n uhat) x.
Proof.
  unfold contraction. destruct r as [|[|r']].
  - now rewrite mean_expansion.
  - apply rsum_ext. intros i _. apply rsum_ext. intros j _. now rewrite mean_expansion.
  - apply rsum_ext. intros i _. apply rsum_ext. intros j _. apply rsum_ext. intros a _. apply rsum_ext. intros b _. now rewrite mean_expansion.
Qed.

(** the sum of products with the coefficients *)
Lemma linear_sum_form A : (forall m, In m A -> shape bcspace dim usp test trial m) ->
  (forall q l, (q < nq)%nat -> column bcspace dim (usp q) l ->
     lsum A (summand dim k l p q) = gridsum 0 dim Q (fun x => ev (co_sg co) x *
        contraction L r dim g test trial U (basis phi dim (fun i => fst (l i)) q (fun i => snd (l i))) x) origin) ->
  linear_sum (Some p) A k n uhat = gridsum 0 dim Q (fun x => ev (co_sg co) x *
        contraction L r dim g test trial U (expansion phi bcspace dim usp n uhat) x) origin.
Proof.
  intros Hs Hf. unfold linear_sum. rewrite fold_lsum.
  transitivity (rsum nq (fun q => colsum 0 dim (cols q) (fun l => lsum A (summand dim k (cnth l) p q) * uhat q l))).
  - transitivity (lsum A (fun m => rsum nq (fun q => colsum 0 dim (cols q) (fun l => summand dim k (cnth l) p q m * uhat q l)))).
    + apply lsum_ext. intros m Hm. destruct (Hs m Hm) as (H1 & H2 & H3 & H4).
      transitivity (rsum nq (fun q => if Nat.eqb q (p_col m) then
         (if (p_row m =? p)%nat then p_scale m * apply_mats 0 (p_mats m) k n (uhat (p_col m)) else 0) else 0)).
      { rewrite (rsum_delta nq (p_col m) (fun _ => if (p_row m =? p)%nat then _ else 0)); [reflexivity|]. now apply Hnq. }
      apply rsum_ext. intros q _. unfold summand. rewrite (Nat.eqb_sym (p_col m) q), H3, Nat.eqb_refl, andb_true_r.
      destruct (Nat.eqb_spec q (p_col m)) as [->|N].
      * rewrite andb_true_r. destruct (Nat.eqb (p_row m) p).
        -- rewrite (apply_colsum bcspace (fun s t E => proj1 (Hbc s t E)) n (usp (p_col m)) k (p_mats m) 0 (uhat (p_col m))).
           2:{ intros j Hj. apply H4. lia. }
           rewrite H3, <- colsum_scal. apply colsum_ext. intros l Hl _.
           rewrite (prod_entry_ext (p_mats m) k 0 (fun j => cnth l (j - 0)) (cnth l)) by (intros; f_equal; lia). ring.
        -- symmetry. etransitivity; [|apply (colsum_zero dim (cols (p_col m)) 0)]. apply colsum_ext. intros. ring.
      * rewrite andb_false_r. symmetry. etransitivity; [|apply (colsum_zero dim (cols q) 0)]. apply colsum_ext. intros. ring.
    + clear. induction A as [|m A IH].
      * rewrite lsum_nil. symmetry. rewrite (rsum_ext nq _ (fun _ => 0)), rsum_0; [reflexivity|].
        intros q _. etransitivity; [|apply (colsum_zero dim (cols q) 0)]. apply colsum_ext. intros. rewrite lsum_nil. ring.
      * rewrite lsum_cons, IH, <- rsum_plus. apply rsum_ext. intros q _. rewrite <- colsum_add. apply colsum_ext. intros.
        rewrite lsum_cons. ring.
  - transitivity (rsum nq (fun q => colsum 0 dim (cols q) (fun l => gridsum 0 dim Q (fun x => ev (co_sg co) x *
        (uhat q l * contraction L r dim g test trial U (Wq q l) x)) origin))).
    + apply rsum_ext. intros q Hq. apply colsum_ext. intros l Hl Hin.
      rewrite (Hf q (cnth l) Hq).
      * rewrite Rmult_comm, <- gridsum_scal. apply gridsum_ext. intros x _. unfold Wq. ring.
      * intros i Hi. specialize (Hin i Hi). cbn [Nat.add] in Hin. unfold columns1 in Hin. apply in_app_or in Hin.
        destruct Hin as [Hin|Hin].
        -- apply in_map_iff in Hin. destruct Hin as [a [<- _]]. now left.
        -- destruct (bcspace (usp q i)) as [t|]; [|destruct Hin]. apply in_map_iff in Hin. destruct Hin as [a [<- _]]. now right.
    + rewrite (rsum_ext nq _ (fun q => gridsum 0 dim Q (fun x => colsum 0 dim (cols q) (fun l => ev (co_sg co) x *
        (uhat q l * contraction L r dim g test trial U (Wq q l) x))) origin)).
      2:{ intros q _. now rewrite (gridsum_colsum dim dim (cols q) 0 Q 0 origin). }
      rewrite <- (gridsum_rsum dim Q nq). apply gridsum_ext. intros x _.
      rewrite <- contraction_expansion, (lin_contraction r g test trial x), <- rsum_scal.
      apply rsum_ext. intros q _. now rewrite colsum_scal.
Qed.

Lemma linear_sum_rows A : (forall m, In m A -> p_row m = p) -> linear_sum None A k n uhat = linear_sum (Some p) A k n uhat.
Proof.
  intros H. unfold linear_sum. rewrite !fold_lsum. apply lsum_ext. intros m Hm. rewrite (H m Hm), Nat.eqb_refl. reflexivity.
Qed.

(** what the component of the output needs of the test expression *)
Definition local (trank : nat) : Prop :=
  match trank with
  | O => forall c, term_of test c -> c = p
  | 1%nat => r = 0%nat \/ forall i j t, (i < dim)%nat -> (j < cnum dim r)%nat -> In t (nth (cidx dim r i j) (e_comps test) []) -> t_ind t = i
  | _ => r = 0%nat \/ r = 2%nat /\ forall i j t, (i < dim)%nat -> (j < dim)%nat -> In t (nth (i * dim + j) (e_comps test) []) -> t_ind t = (i * dim + j)%nat
  end.

Lemma mean_U_zero c x : (forall t, In t (nth c (e_comps test) []) -> t_ind t <> p) -> mean L test c U x = 0.
Proof.
  unfold mean. intros H. induction (nth c (e_comps test) []) as [|t l IH]; [reflexivity|].
  rewrite mean_comp_cons, IH by (intros; apply H; now right).
  unfold basis. destruct (Nat.eqb_spec (t_ind t) p) as [E|_]; [exfalso; apply (H t); [now left|exact E]|]. ring.
Qed.

Theorem linear_form trank v : (trank <= 2)%nat -> local trank -> ((0 < trank)%nat -> (0 < r)%nat -> (p < dim ^ trank)%nat) ->
  inner_linear split ip bcspace co gij trank tsp usp test trial p k n uhat = Some v ->
  v = gridsum 0 dim Q (fun x => ev (co_sg co) x *
        contraction L r dim g test trial U (expansion phi bcspace dim usp n uhat) x) origin.
Proof.
  intros Htr Hloc Hp. unfold inner_linear. rewrite Hrt. cbn [obind].
  assert (Hflat : forall A, inner_mats split ip bcspace co gij tsp usp test trial = Some A ->
     linear_sum (Some p) A k n uhat = gridsum 0 dim Q (fun x => ev (co_sg co) x *
        contraction L r dim g test trial U (expansion phi bcspace dim usp n uhat) x) origin).
  { intros A HA. apply linear_sum_form.
    - eapply inner_shape; eassumption.
    - intros q l Hq Hl. eapply (flat_sum L phi quad mval split ip bcspace co gij dim Hip Hbc Hsplit Hdim tsp usp Hcount p q k l Hl test trial r); eassumption. }
  destruct (Nat.eqb_spec trank 0) as [T0|T0]; cbn [orb].
  { destruct (inner_mats split ip bcspace co gij tsp usp test trial) as [A|] eqn:EA; [|discriminate]. cbn [obind].
    intros E. injection E as <-. rewrite linear_sum_rows; [now apply Hflat|].
    intros m Hm. rewrite T0 in Hloc. cbn in Hloc. apply Hloc.
    eapply (inner_shape phi quad mval split ip bcspace co gij dim Hip Hdim tsp usp Hcount test trial A Hwt Hdt EA m Hm). }
  destruct (Nat.eqb_spec r 0) as [R0|R0].
  { destruct (inner_mats split ip bcspace co gij tsp usp test trial) as [A|] eqn:EA; [|discriminate]. cbn [obind].
    intros E. injection E as <-. now apply Hflat. }
  assert (R2 : (r <= 2)%nat) by (eapply rank_le2; eassumption).
  destruct trank as [|[|[|t]]]; try lia.
  - (* vectors *)
    destruct (rec1_row split ip bcspace co gij true tsp usp test trial p) as [A|] eqn:EA; [|discriminate]. cbn [obind].
    intros E. injection E as <-. cbn in Hloc. destruct Hloc as [|Hloc]; [lia|].
    assert (Hpd : (p < dim)%nat) by (specialize (Hp ltac:(lia) ltac:(lia)); rewrite Nat.pow_1_r in Hp; exact Hp).
    assert (Hsh : forall m, In m A -> shape bcspace dim usp test trial m /\ p_row m = p).
    { intros m Hm. unfold rec1_row in EA. destruct (concat_opt_In _ _ _ _ EA Hm) as [j [s [_ [Es Hms]]]].
      destruct (s_is0 (gij p j)); [injection Es as <-; destruct Hms|].
      destruct (getitem test p) as [te|] eqn:G1; [|discriminate]. cbn [obind] in Es.
      destruct (getitem trial j) as [tr|] eqn:G2; [|discriminate]. cbn [obind] in Es.
      destruct (item_val L dim Hdim test trial Hdt Hdu test p te r Hwt Hdt Hrt G1) as (B1 & B2 & B3 & B4 & B5 & _).
      destruct (inner_shape phi quad mval split ip bcspace co gij dim Hip Hdim tsp usp Hcount _ _ s (mul_wf _ _ B4) B3 Es m Hms) as (S1 & S2 & S3).
      split.
      - split; [|split].
        + eapply term_of_getitem; [exact G1|]. eapply term_of_mul, S1.
        + eapply term_of_getitem; [exact G2|exact S2].
        + exact S3.
      - apply term_of_mul in S1. destruct S1 as (cc & tt & I1 & I2 & I3). rewrite <- I3.
        destruct (In_nth _ _ [] I1) as [a [Ha Ea]]. unfold num_components in B5. rewrite B5 in Ha.
        apply (Hloc p a tt Hpd Ha). rewrite <- Ea in I2.
        replace (nth (cidx dim r p a) (e_comps test) []) with (nth a (e_comps te) []); [exact I2|].
        destruct B1 as [-> | ->].
        + destruct (getitem_rank1 _ _ _ Hrt G1) as (_ & _ & _ & A4). cbn in Ha. assert (a = 0)%nat as -> by lia. rewrite A4. reflexivity.
        + unfold cidx. cbn [Nat.eqb]. rewrite <- Hdt. cbn in Ha. now apply (row_comp test p te a Hrt G1 ltac:(lia)). }
    rewrite linear_sum_rows by (intros m Hm; now apply Hsh).
    apply linear_sum_form; [intros m Hm; now apply Hsh|]. intros q l Hq Hl.
    rewrite (rec1_row_sum L phi quad mval split ip bcspace co gij dim Hip Hbc Hsplit Hdim tsp usp Hcount p q k l Hl test trial r Hwt Hwu Hdt Hdu Hrt Hru Hg true p A EA).
    apply gridsum_ext. intros x _. f_equal.
    rewrite <- (row_contraction L phi gij dim tsp p q k l test trial r Hrt Hru x) by lia.
    rewrite (rsum_ext dim _ (fun i => if Nat.eqb i p then rowval L phi gij dim tsp p q k l test trial r i x else 0)).
    + symmetry. now apply (rsum_delta dim p (fun i => rowval L phi gij dim tsp p q k l test trial r i x)).
    + intros i Hi. destruct (Nat.eqb_spec i p) as [->|N]; [reflexivity|].
      unfold rowval. rewrite (rsum_ext dim _ (fun _ => 0)), rsum_0; [reflexivity|]. intros j _.
      unfold rowdot. rewrite (rsum_ext (cnum dim r) _ (fun _ => 0)), rsum_0; [ring|]. intros a Ha.
      rewrite (rsum_ext (cnum dim r) _ (fun _ => 0)), rsum_0; [ring|]. intros b _.
      rewrite mean_U_zero; [ring|]. intros tt Ht. rewrite (Hloc i a tt Hi Ha Ht). exact N.
  - (* tensors *)
    destruct (rec2_row split ip bcspace co gij tsp usp test trial (p / e_dim test) (p mod e_dim test)) as [A|] eqn:EA; [|discriminate]. cbn [obind].
    intros E. injection E as <-. cbn in Hloc. destruct Hloc as [|[Hr2 Hloc]]; [lia|]. rewrite Hdt in EA.
    assert (Hpd : (p < dim * dim)%nat) by (specialize (Hp ltac:(lia) ltac:(lia)); cbn in Hp; lia).
    set (i0 := (p / dim)%nat) in *. set (j0 := (p mod dim)%nat) in *.
    assert (Hd0 : dim <> 0%nat) by lia.
    assert (Hi0 : (i0 < dim)%nat) by (apply Nat.div_lt_upper_bound; lia).
    assert (Hj0 : (j0 < dim)%nat) by (apply Nat.mod_upper_bound; lia).
    assert (Hij : (i0 * dim + j0)%nat = p) by (pose proof (Nat.div_mod p dim Hd0); unfold i0, j0; lia).
    pose proof Hrt as Hrt2. rewrite Hr2 in Hrt2.
    assert (Hsh : forall m, In m A -> shape bcspace dim usp test trial m /\ p_row m = p).
    { intros m Hm. unfold rec2_row in EA. destruct (concat_opt_in _ _ _ EA Hm) as [s [Hs Hms]].
      apply in_flat_map in Hs. destruct Hs as [a [_ Hs]]. destruct (s_is0 (gij i0 a)); [destruct Hs|].
      apply in_map_iff in Hs. destruct Hs as [b [Es _]].
      destruct (s_is0 (gij j0 b)); [injection Es as <-; destruct Hms|].
      destruct (getitem test i0) as [ti|] eqn:G1; [|discriminate]. cbn [obind] in Es.
      destruct (getitem ti j0) as [te|] eqn:G2; [|discriminate]. cbn [obind] in Es.
      destruct (getitem trial a) as [tk|] eqn:G3; [|discriminate]. cbn [obind] in Es.
      destruct (getitem tk b) as [tr|] eqn:G4; [|discriminate]. cbn [obind] in Es.
      destruct (item_val L dim Hdim test trial Hdt Hdu test i0 ti r Hwt Hdt Hrt G1) as (B1 & B2 & B3 & B4 & B5 & _).
      assert (Hti : exists q1, expr_rank ti = Some q1).
      { unfold getitem in G2. destruct (_ <=? _)%nat; [discriminate|]. destruct (expr_rank ti) as [q1|]; [eauto|discriminate]. }
      destruct Hti as [q1 Hq1].
      rewrite (row_rank _ _ _ _ Hwt Hrt2 G1 Hq1) in Hq1.
      destruct (item_val L dim Hdim test trial Hdt Hdu ti j0 te 1 B4 B3 Hq1 G2) as (_ & E2 & E3 & E4 & E5 & _).
      destruct (inner_shape phi quad mval split ip bcspace co gij dim Hip Hdim tsp usp Hcount _ _ s (mul_wf _ _ (mul_wf _ _ E4)) E3 Es m Hms) as (S1 & S2 & S3).
      apply term_of_mul, term_of_mul in S1.
      split.
      - split; [|split].
        + eapply term_of_getitem; [exact G1|]. eapply term_of_getitem; [exact G2|exact S1].
        + eapply term_of_getitem; [exact G3|]. eapply term_of_getitem; [exact G4|exact S2].
        + exact S3.
      - destruct S1 as (cc & tt & I1 & I2 & I3). rewrite <- I3, <- Hij.
        apply (Hloc i0 j0 tt Hi0 Hj0).
        destruct (getitem_rank1 _ _ _ Hq1 G2) as (_ & _ & _ & A4). rewrite A4 in I1. destruct I1 as [<-|[]].
        rewrite (row_comp test i0 ti j0 Hrt2 G1) in I2 by lia. rewrite Hdt in I2. exact I2. }
    rewrite linear_sum_rows by (intros m Hm; now apply Hsh).
    apply linear_sum_form; [intros m Hm; now apply Hsh|]. intros q l Hq Hl.
    destruct (rec2_row_sum L phi quad mval split ip bcspace co gij dim Hip Hbc Hsplit Hdim tsp usp Hcount p q k l Hl test trial r Hwt Hwu Hdt Hdu Hrt Hru Hg i0 j0 A EA) as [_ Hsum].
    rewrite Hsum. apply gridsum_ext. intros x _. f_equal. rewrite Hr2.
    change (contraction L 2 dim g test trial U (basis phi dim (fun i => fst (l i)) q (fun i => snd (l i))) x)
      with (rsum dim (fun i => rsum dim (fun j => rowval2 L phi gij dim tsp p q k l test trial i j x))).
    rewrite (rsum_ext dim (fun i => rsum dim (fun j => rowval2 L phi gij dim tsp p q k l test trial i j x))
       (fun i => if Nat.eqb i i0 then rsum dim (fun j => if Nat.eqb j j0 then rowval2 L phi gij dim tsp p q k l test trial i j x else 0) else 0)).
    + rewrite (rsum_delta dim i0 (fun i => rsum dim (fun j => if Nat.eqb j j0 then rowval2 L phi gij dim tsp p q k l test trial i j x else 0)) Hi0).
      symmetry. apply (rsum_delta dim j0 (fun j => rowval2 L phi gij dim tsp p q k l test trial i0 j x) Hj0).
    + intros i Hi.
      assert (Hz : forall j, (j < dim)%nat -> (i, j) <> (i0, j0) -> rowval2 L phi gij dim tsp p q k l test trial i j x = 0).
      { intros j Hj N. unfold rowval2. rewrite (rsum_ext dim _ (fun _ => 0)), rsum_0; [reflexivity|]. intros a Ha.
        rewrite (rsum_ext dim _ (fun _ => 0)), rsum_0; [ring|]. intros b _.
        rewrite mean_U_zero; [ring|]. intros tt Ht. rewrite (Hloc i j tt Hi Hj Ht), <- Hij. intros E. apply N.
        assert (i = i0) by nia. subst i. f_equal. lia. }
      destruct (Nat.eqb_spec i i0) as [->|N].
      * apply rsum_ext. intros j Hj. destruct (Nat.eqb_spec j j0) as [->|N]; [reflexivity|]. apply Hz; [exact Hj|congruence].
      * rewrite (rsum_ext dim _ (fun _ => 0)), rsum_0; [reflexivity|]. intros j Hj. apply Hz; [exact Hj|congruence].
Qed.

Lemma own_local trank : own_component trank r dim test p -> (trank <= 2)%nat -> (r <= 2)%nat ->
  local trank /\ ((0 < trank)%nat -> (0 < r)%nat -> (p < dim ^ trank)%nat).
Proof.
  clear. unfold local. intros H Ht Hr. destruct trank as [|[|[|t]]]; try lia; destruct r as [|[|[|r']]]; try lia; unfold own_component in H.
  1-3: split; [exact H|lia].
  - destruct H as [Hp H]. split; [right|intros _ _; rewrite Nat.pow_1_r; exact Hp]. intros i j t Hi Hj. apply H. exact Hi.
  - destruct H as [Hp H]. split; [right|intros _ _; rewrite Nat.pow_1_r; exact Hp]. intros i j t Hi Hj. now apply H.
  - destruct H.
  - destruct H as [Hp H]. split; [|intros _ _; cbn; rewrite Nat.mul_1_r; exact Hp]. right. split; [reflexivity|]. exact H.
Qed.
End Form.
