(** InnerProofs4.v -- the recursive algorithms for vector and tensor spaces. *)
From Coq Require Import Reals ZArith List Bool Arith Lia Lra String.
From Verif Require Import Base FormsModel FormsSpec FormsProofs FormsProofs2 FormsProofs3 InnerModel InnerSpec InnerProofs InnerProofs2 InnerProofs3.
Import ListNotations.
Local Open Scope R_scope.
Local Notation length := List.length.
Local Notation rsum := FormsSpec.rsum.

Lemma rsum_swap n m (f : nat -> nat -> R) : rsum n (fun i => rsum m (fun j => f i j)) = rsum m (fun j => rsum n (fun i => f i j)).
Proof.
  induction n as [|n IH]; cbn [FormsSpec.rsum].
  - symmetry. apply rsum_0.
  - rewrite IH, <- rsum_plus. reflexivity.
Qed.
Lemma concat_opt_none {A} (l : list (option (list A))) : In None l -> concat_opt l = None.
Proof.
  intros H. unfold concat_opt. destruct (opt_all l) as [r|] eqn:E; [|reflexivity].
  apply opt_all_some in E. rewrite E in H. apply in_map_iff in H. destruct H as [x [Hx _]]. discriminate.
Qed.

Section Form.
Context {S : Sym} (L : SymLaws S).
Variable phi : space -> nat -> nat -> R -> R.
Variable quad : space -> rule.
Variable mval : S -> R -> R.
Variable split : S -> option (list (dict S)).
Variable ip : space -> nat -> space -> nat -> S -> option mat.
Variable bcspace : space -> option space.
Variable co : coords S.
Variable gij : nat -> nat -> S.
Variable dim : nat.
Hypothesis Hip : ip_law phi quad mval ip.
Hypothesis Hbc : bc_law bcspace ip.
Hypothesis Hsplit : split_law L mval dim axis_names split.
Hypothesis Hdim : (dim <= 5)%nat.
Variables (tsp usp : nat -> nat -> space).
Hypothesis Hcount : forall q, (count_bc bcspace (usp q) dim <= 1)%nat \/ dim = 2%nat.
Variables (p q : nat) (k : nat -> nat) (l : nat -> space * nat).
Hypothesis Hcol : column bcspace dim (usp q) l.

Notation Q := (fun i => quad (tsp p i)).
Notation U := (basis phi dim (tsp p) p k).
Notation W := (basis phi dim (fun i => fst (l i)) q (fun i => snd (l i))).
Notation sum := (summand dim k l p q).
Notation ev := (ev L). Notation good := (good L).
Notation gridok := (grid_ok L quad co gij dim tsp p).
Notation g := (fun i j x => ev (gij i j) x).

Variables (test trial : expr S) (r : nat).
Hypothesis Hwt : wf test.
Hypothesis Hwu : wf trial.
Hypothesis Hdt : e_dim test = dim.
Hypothesis Hdu : e_dim trial = dim.
Hypothesis Hrt : expr_rank test = Some r.
Hypothesis Hru : expr_rank trial = Some r.
Hypothesis Hg : gridok test trial.

Definition cidx (r i j : nat) : nat := if (r =? 1)%nat then i else (i * dim + j)%nat.
Definition cnum (r : nat) : nat := if (r =? 1)%nat then 1%nat else dim.

Lemma item_val e i e' rk : wf e -> e_dim e = dim -> expr_rank e = Some rk -> getitem e i = Some e' ->
  (rk = 1 \/ rk = 2)%nat /\ (i < dim)%nat /\ e_dim e' = dim /\ wf e' /\ num_components e' = cnum rk /\
  (forall x, defined L e x -> defined L e' x) /\
  forall j V x, (j < cnum rk)%nat -> mean L e' j V x = mean L e (cidx rk i j) V x.
Proof.
  intros Hw Hd Hr Hi.
  pose proof (getitem_wf _ _ _ Hi Hw) as Hw'.
  assert (Hrk : (rk = 1 \/ rk = 2)%nat).
  { unfold getitem in Hi. destruct (_ <=? _)%nat; [discriminate|]. rewrite Hr in Hi. cbn [obind] in Hi.
    destruct rk as [|[|[|rk]]]; try discriminate; auto. }
  destruct Hrk as [-> | ->].
  - destruct (getitem_rank1 _ _ _ Hr Hi) as (A1 & A2 & A3 & A4).
    split; [auto|]. split; [lia|]. split; [congruence|]. split; [exact Hw'|].
    split; [unfold num_components; rewrite A4; reflexivity|].
    split; [intros x; now apply (getitem_defined L _ _ _ x Hi)|].
    intros j V x Hj. cbn in Hj. assert (j = 0)%nat as -> by lia.
    unfold mean at 1. rewrite A4. reflexivity.
  - destruct (getitem_rank2 _ _ _ Hr Hi) as (A1 & A2 & A3).
    destruct (rank2_num _ Hw Hr) as [A4 A5].
    split; [auto|]. split; [lia|]. split; [congruence|]. split; [exact Hw'|].
    split; [|split; [intros x; now apply (getitem_defined L _ _ _ x Hi)|]].
    + unfold num_components in *. rewrite A3, firstn_length, skipn_length, A4, Hd in *. cbn. nia.
    + intros j V x Hj. cbn in Hj. rewrite !mean_mc. unfold comp, cidx. cbn [Nat.eqb].
      rewrite <- Hd. rewrite A3, nth_firstn, nth_skipn by lia. reflexivity.
Qed.

(** sum over the components of two rows *)
Definition rowdot (i j : nat) (x : pt) : R :=
  rsum (cnum r) (fun a => rsum (cnum r) (fun b => (if (r =? 1)%nat then 1 else g a b x)
     * (mean L test (cidx r i a) U x * mean L trial (cidx r j b) W x))).

Lemma cnum_Gf a b x : cnum r = 1%nat \/ cnum r <> 1%nat -> (1 < dim \/ r = 1)%nat ->
  Gf L gij (cnum r) a b x = if (r =? 1)%nat then 1 else g a b x.
Proof.
  clear - r. unfold Gf, cnum. intros _ H. destruct (Nat.eqb_spec r 1); [reflexivity|].
  destruct (Nat.eqb_spec dim 1); [lia|reflexivity].
Qed.

Lemma rank_dim : (r = 1 \/ r = 2)%nat -> (1 < dim \/ r = 1)%nat.
Proof. intros [->| ->]; [auto|]. destruct (rank2_num _ Hwt Hrt) as [_ H]. lia. Qed.

Lemma rec_pair (lin : bool) i j te tr A :
  getitem test i = Some te -> getitem trial j = Some tr ->
  (if lin then inner_mats split ip bcspace co gij tsp usp (mul te (gij i j)) tr
   else inner_mats split ip bcspace co gij tsp usp te (mul tr (gij i j))) = Some A ->
  lsum A sum = gridsum 0 dim Q (fun x => ev (co_sg co) x * (g i j x * rowdot i j x)) origin.
Proof.
  intros Hi Hj Ha.
  destruct (item_val _ _ _ _ Hwt Hdt Hrt Hi) as (B1 & B2 & B3 & B4 & B5 & B6 & B7).
  destruct (item_val _ _ _ _ Hwu Hdu Hru Hj) as (_ & C2 & C3 & C4 & C5 & C6 & C7).
  pose proof (rank_dim B1) as Hrd.
  assert (Hgood : forall x, on_grid dim Q x -> defined L te x /\ defined L tr x /\ good (co_sg co) x /\ forall i j, good (gij i j) x).
  { intros x Hx. destruct (Hg x Hx) as (D1 & D2 & D3 & D4). auto. }
  destruct lin.
  - rewrite (inner_sum L phi quad mval split ip bcspace co gij dim Hip Hbc Hsplit Hdim tsp usp Hcount p q k l Hcol
       (mul te (gij i j)) tr A (mul_wf te (gij i j) B4) B3).
    3: exact Ha.
    2:{ intros x Hx. destruct (Hgood x Hx) as (D1 & D2 & D3 & D4). assert (DX := fun e => mul_defined L e (gij i j) x (D4 i j)). auto. }
    apply gridsum_ext. intros x Hx. destruct (Hgood x Hx) as (D1 & D2 & D3 & D4). f_equal.
    destruct (mul_like te (gij i j)) as [_ En]. rewrite En, B5, C5. unfold dotted, rowdot. rewrite <- rsum_scal.
    apply rsum_ext. intros a Ha'. rewrite <- rsum_scal. apply rsum_ext. intros b Hb'.
    rewrite cnum_Gf by (try exact Hrd; lia).
    rewrite mul_mean by auto. rewrite B7, C7 by assumption. ring.
  - rewrite (inner_sum L phi quad mval split ip bcspace co gij dim Hip Hbc Hsplit Hdim tsp usp Hcount p q k l Hcol
       te (mul tr (gij i j)) A B4 B3).
    3: exact Ha.
    2:{ intros x Hx. destruct (Hgood x Hx) as (D1 & D2 & D3 & D4). assert (DX := fun e => mul_defined L e (gij i j) x (D4 i j)). auto. }
    apply gridsum_ext. intros x Hx. destruct (Hgood x Hx) as (D1 & D2 & D3 & D4). f_equal.
    destruct (mul_like tr (gij i j)) as [_ En]. rewrite En, B5, C5. unfold dotted, rowdot. rewrite <- rsum_scal.
    apply rsum_ext. intros a Ha'. rewrite <- rsum_scal. apply rsum_ext. intros b Hb'.
    rewrite cnum_Gf by (try exact Hrd; lia).
    rewrite mul_mean by auto. rewrite B7, C7 by assumption. ring.
Qed.

(** one component of the test expression *)
Definition rowval (i : nat) (x : pt) : R := rsum dim (fun j => g i j x * rowdot i j x).
Lemma gridsum_0 n (qq : nat -> rule) f x : (forall y, on_grid n qq y -> f y = 0) -> gridsum 0 n qq f x = 0.
Proof. intros H. rewrite <- (gridsum_zero n qq 0 x). now apply gridsum_ext. Qed.

Lemma rec1_row_sum lin i A : rec1_row split ip bcspace co gij lin tsp usp test trial i = Some A ->
  lsum A sum = gridsum 0 dim Q (fun x => ev (co_sg co) x * rowval i x) origin.
Proof.
  unfold rec1_row. intros H. rewrite Hdu in H.
  rewrite (concat_opt_sum _ _ _ _ (fun j => gridsum 0 dim Q (fun x => ev (co_sg co) x * (g i j x * rowdot i j x)) origin) H).
  - rewrite lsum_seq, <- (gridsum_rsum dim Q dim). apply gridsum_ext. intros x _. unfold rowval. now rewrite rsum_scal.
  - intros j s _ E. destruct (s_is0 (gij i j)) eqn:E0.
    + injection E as <-. rewrite lsum_nil. symmetry. apply gridsum_0. intros x _. rewrite (ev_is0 _ L _ _ E0). ring.
    + destruct (getitem test i) as [te|] eqn:E1; [|discriminate]. cbn [obind] in E.
      destruct (getitem trial j) as [tr|] eqn:E2; [|discriminate]. cbn [obind] in E.
      eapply rec_pair; eassumption.
Qed.

Lemma row_contraction x : (r = 1 \/ r = 2)%nat -> rsum dim (fun i => rowval i x) = contraction L r dim g test trial U W x.
Proof.
  intros Hr. unfold rowval, rowdot, contraction, cidx, cnum. destruct Hr as [-> | ->]; cbn [Nat.eqb].
  - apply rsum_ext. intros i _. apply rsum_ext. intros j _. cbn [FormsSpec.rsum]. ring.
  - apply rsum_ext. intros i _.
    transitivity (rsum dim (fun j => rsum dim (fun a => rsum dim (fun b => g i j x * g a b x *
        (mean L test (i * dim + a) U x * mean L trial (j * dim + b) W x))))).
    + apply rsum_ext. intros j _. rewrite <- rsum_scal. apply rsum_ext. intros a _.
      rewrite <- rsum_scal. apply rsum_ext. intros b _. ring.
    + now rewrite (rsum_swap dim dim).
Qed.

(** tensor spaces *)
Definition rowval2 (i j : nat) (x : pt) : R :=
  rsum dim (fun a => rsum dim (fun b => g i a x * g j b x * (mean L test (i * dim + j) U x * mean L trial (a * dim + b) W x))).
Lemma rec2_quad i j a b ti te tk tr A :
  getitem test i = Some ti -> getitem ti j = Some te -> getitem trial a = Some tk -> getitem tk b = Some tr ->
  inner_mats split ip bcspace co gij tsp usp (mul (mul te (gij i a)) (gij j b)) tr = Some A ->
  r = 2%nat /\
  lsum A sum = gridsum 0 dim Q (fun x => ev (co_sg co) x *
     (g i a x * g j b x * (mean L test (i * dim + j) U x * mean L trial (a * dim + b) W x))) origin.
Proof.
  intros Hi Hj Hk Hl Ha.
  destruct (item_val _ _ _ _ Hwt Hdt Hrt Hi) as (B1 & B2 & B3 & B4 & B5 & B6 & B7).
  destruct (item_val _ _ _ _ Hwu Hdu Hru Hk) as (_ & C2 & C3 & C4 & C5 & C6 & C7).
  assert (Hti : exists q1, expr_rank ti = Some q1).
  { unfold getitem in Hj. destruct (_ <=? _)%nat; [discriminate|]. destruct (expr_rank ti) as [q1|]; [eauto|discriminate]. }
  destruct Hti as [q1 Hq1].
  assert (Htk : exists q1, expr_rank tk = Some q1).
  { unfold getitem in Hl. destruct (_ <=? _)%nat; [discriminate|]. destruct (expr_rank tk) as [q2|]; [eauto|discriminate]. }
  destruct Htk as [q2 Hq2].
  assert (Hr2 : r = 2%nat).
  { destruct B1 as [E|E]; [exfalso|exact E].
    destruct (item_val _ _ _ _ B4 B3 Hq1 Hj) as (B1' & _).
    assert (num_components ti = 1%nat) by (rewrite B5, E; reflexivity).
    unfold expr_rank in Hq1. rewrite H in Hq1. destruct (e_dim ti =? 1)%nat; cbn in Hq1; injection Hq1 as <-; lia. }
  split; [exact Hr2|].
  pose proof Hrt as Hrt2. pose proof Hru as Hru2. rewrite Hr2 in Hrt2, Hru2.
  rewrite (row_rank _ _ _ _ Hwt Hrt2 Hi Hq1) in Hq1.
  rewrite (row_rank _ _ _ _ Hwu Hru2 Hk Hq2) in Hq2.
  destruct (item_val _ _ _ _ B4 B3 Hq1 Hj) as (_ & E2 & E3 & E4 & E5 & E6 & E7).
  destruct (item_val _ _ _ _ C4 C3 Hq2 Hl) as (_ & F2 & F3 & F4 & F5 & F6 & F7).
  cbn in E5, F5.
  assert (Hgood : forall x, on_grid dim Q x -> defined L te x /\ defined L tr x /\ good (co_sg co) x /\ forall i j, good (gij i j) x).
  { intros x Hx. destruct (Hg x Hx) as (D1 & D2 & D3 & D4). auto. }
  rewrite (inner_sum L phi quad mval split ip bcspace co gij dim Hip Hbc Hsplit Hdim tsp usp Hcount p q k l Hcol
     (mul (mul te (gij i a)) (gij j b)) tr A (mul_wf _ _ (mul_wf _ _ E4)) E3).
  3: exact Ha.
  2:{ intros x Hx. destruct (Hgood x Hx) as (D1 & D2 & D3 & D4). split; [apply mul_defined; auto; apply mul_defined; auto|auto]. }
  apply gridsum_ext. intros x Hx. destruct (Hgood x Hx) as (D1 & D2 & D3 & D4). f_equal.
  destruct (mul_like (mul te (gij i a)) (gij j b)) as [_ En]. rewrite En.
  destruct (mul_like te (gij i a)) as [_ En2]. rewrite En2, E5, F5. unfold dotted. cbn [FormsSpec.rsum].
  unfold Gf. cbn [Nat.eqb].
  rewrite mul_mean by (try apply mul_defined; auto). rewrite mul_mean by auto.
  rewrite E7, F7 by (cbn; lia). unfold cidx. cbn [Nat.eqb].
  rewrite B7, C7 by (rewrite Hr2; cbn; lia). rewrite Hr2. unfold cidx. cbn [Nat.eqb]. ring.
Qed.

Lemma rec2_row_sum i j A : rec2_row split ip bcspace co gij tsp usp test trial i j = Some A ->
  (r = 2%nat \/ forall x, on_grid dim Q x -> (forall a, (a < dim)%nat -> g i a x = 0) \/ (forall b, (b < dim)%nat -> g j b x = 0)) /\
  lsum A sum = gridsum 0 dim Q (fun x => ev (co_sg co) x * rowval2 i j x) origin.
Proof.
  unfold rec2_row. intros H. rewrite Hdu in H. split.
  - destruct (forallb (fun a => s_is0 (gij i a)) (seq 0 dim)) eqn:Ea.
    { right. intros x _. left. intros a Ha. rewrite forallb_forall in Ea. apply (ev_is0 _ L). apply Ea, in_seq. lia. }
    destruct (forallb (fun b => s_is0 (gij j b)) (seq 0 dim)) eqn:Eb.
    { right. intros x _. right. intros b Hb. rewrite forallb_forall in Eb. apply (ev_is0 _ L). apply Eb, in_seq. lia. }
    left.
    assert (Ha : exists a, In a (seq 0 dim) /\ s_is0 (gij i a) = false).
    { clear -Ea. induction (seq 0 dim) as [|a m IH]; [discriminate|]. cbn in Ea.
      destruct (s_is0 (gij i a)) eqn:E; [|exists a; split; [now left|exact E]].
      destruct (IH Ea) as [a' [H1 H2]]. exists a'. split; [now right|exact H2]. }
    assert (Hb : exists b, In b (seq 0 dim) /\ s_is0 (gij j b) = false).
    { clear -Eb. induction (seq 0 dim) as [|a m IH]; [discriminate|]. cbn in Eb.
      destruct (s_is0 (gij j a)) eqn:E; [|exists a; split; [now left|exact E]].
      destruct (IH Eb) as [a' [H1 H2]]. exists a'. split; [now right|exact H2]. }
    destruct Ha as [a [Ha1 Ha2]], Hb as [b [Hb1 Hb2]].
    match type of H with concat_opt ?LL = _ => set (LL0 := LL) in H end.
    assert (Hall : forall o, In o LL0 -> o <> None).
    { intros o Ho ->. rewrite (concat_opt_none _ Ho) in H. discriminate. }
    match goal with LL0 := flat_map ?F _ |- _ => pose (F0 := F) end.
    specialize (Hall (do ti <- getitem test i ;; do te <- getitem ti j ;;
          do tk <- getitem trial a ;; do tr <- getitem tk b ;;
          inner_mats split ip bcspace co gij tsp usp (mul (mul te (gij i a)) (gij j b)) tr)).
    assert (Hin : In (do ti <- getitem test i ;; do te <- getitem ti j ;;
          do tk <- getitem trial a ;; do tr <- getitem tk b ;;
          inner_mats split ip bcspace co gij tsp usp (mul (mul te (gij i a)) (gij j b)) tr) LL0).
    { unfold LL0. apply in_flat_map. exists a. split; [exact Ha1|]. rewrite Ha2. apply in_map_iff. exists b. rewrite Hb2. auto. }
    specialize (Hall Hin).
    destruct (getitem test i) as [ti|] eqn:G1; cbn [obind] in Hall; [|congruence].
    destruct (getitem ti j) as [te|] eqn:G2; cbn [obind] in Hall; [|congruence].
    destruct (getitem trial a) as [tk|] eqn:G3; cbn [obind] in Hall; [|congruence].
    destruct (getitem tk b) as [tr|] eqn:G4; cbn [obind] in Hall; [|congruence].
    destruct (inner_mats _ _ _ _ _ _ _ _ _) as [A'|] eqn:G5 in Hall; [|congruence].
    now destruct (rec2_quad i j a b ti te tk tr A' G1 G2 G3 G4 G5).
  - rewrite (concat_opt_flat _ _ _ _ (fun a => gridsum 0 dim Q (fun x => ev (co_sg co) x * rsum dim (fun b =>
       g i a x * g j b x * (mean L test (i * dim + j) U x * mean L trial (a * dim + b) W x))) origin) H).
    { rewrite lsum_seq, <- (gridsum_rsum dim Q dim). apply gridsum_ext. intros x _. unfold rowval2. now rewrite rsum_scal. }
    intros a s Ha Hs. destruct (s_is0 (gij i a)) eqn:E0.
    { cbn in Hs. injection Hs as <-. rewrite lsum_nil. symmetry. apply gridsum_0. intros x _.
      rewrite (rsum_ext dim _ (fun _ => 0)), rsum_0; [ring|]. intros b _. rewrite (ev_is0 _ L _ _ E0). ring. }
    rewrite (concat_opt_sum _ _ _ _ (fun b => gridsum 0 dim Q (fun x => ev (co_sg co) x *
       (g i a x * g j b x * (mean L test (i * dim + j) U x * mean L trial (a * dim + b) W x))) origin) Hs).
    { rewrite lsum_seq, <- (gridsum_rsum dim Q dim). apply gridsum_ext. intros x _. now rewrite rsum_scal. }
    intros b s' Hb E. destruct (s_is0 (gij j b)) eqn:E1.
    { injection E as <-. rewrite lsum_nil. symmetry. apply gridsum_0. intros x _. rewrite (ev_is0 _ L _ _ E1). ring. }
    destruct (getitem test i) as [ti|] eqn:G1; cbn [obind] in E; [|discriminate].
    destruct (getitem ti j) as [te|] eqn:G2; cbn [obind] in E; [|discriminate].
    destruct (getitem trial a) as [tk|] eqn:G3; cbn [obind] in E; [|discriminate].
    destruct (getitem tk b) as [tr|] eqn:G4; cbn [obind] in E; [|discriminate].
    eapply rec2_quad; eassumption.
Qed.

(** scalar spaces: the components *)
Lemma flat_sum A : inner_mats split ip bcspace co gij tsp usp test trial = Some A ->
  lsum A sum = gridsum 0 dim Q (fun x => ev (co_sg co) x * contraction L r dim g test trial U W x) origin.
Proof.
  intros H.
  rewrite (inner_sum L phi quad mval split ip bcspace co gij dim Hip Hbc Hsplit Hdim tsp usp Hcount p q k l Hcol
     test trial A Hwt Hdt Hg H).
  assert (Hmet : forall i j, (i < num_components test)%nat -> (j < num_components trial)%nat -> metric gij dim (num_components test) i j <> None).
  { intros i j Hi Hj E. unfold inner_mats in H. rewrite Hrt, Hru in H. cbn [obind] in H. rewrite Nat.eqb_refl in H. cbn [negb] in H.
    rewrite Hdt in H.
    rewrite (concat_opt_none) in H; [discriminate|].
    apply in_flat_map. exists i. split; [apply in_seq; lia|]. apply in_map_iff. exists j. split; [|apply in_seq; lia].
    unfold comps_mats. now rewrite E. }
  assert (Hmet2 : forall i, (i < num_components test)%nat -> (i < num_components trial)%nat -> num_components test = 1%nat \/ (i < dim)%nat).
  { intros i Hi Hj. specialize (Hmet i i Hi Hj). unfold metric in Hmet. destruct (Nat.eqb_spec (num_components test) 1); [auto|].
    destruct (Nat.leb_spec dim i); [cbn in Hmet; congruence|auto]. }
  apply gridsum_ext. intros x Hx. f_equal.
  destruct r as [|[|[|r']]].
  - assert (Hn : forall e : expr S, expr_rank e = Some 0%nat -> wf e -> e_dim e = dim -> (num_components e = 0 /\ dim = 1 \/ num_components e = 1)%nat).
    { clear. intros e H W D. unfold expr_rank in H. destruct (Nat.eqb_spec (e_dim e) 1).
      - destruct (Nat.ltb_spec (num_components e) 3); [|discriminate]. injection H as H. lia.
      - destruct (Nat.eqb_spec (num_components e) 1); [auto|].
        destruct (e_comps e) as [|[|t c] l]; try discriminate.
        destruct (_ =? _)%nat; [discriminate|]. destruct (_ =? _)%nat; discriminate. }
    assert (Hz : forall (e : expr S) V, num_components e = 0%nat -> mean L e 0 V x = 0).
    { clear. intros e V H. unfold mean. destruct (e_comps e) eqn:E; [reflexivity|]. unfold num_components in H. rewrite E in H. discriminate. }
    unfold dotted, contraction, Gf.
    destruct (Hn _ Hrt Hwt Hdt) as [[N1 _]|N1].
    + rewrite N1, (Hz _ U N1). cbn. ring.
    + rewrite N1. cbn [FormsSpec.rsum Nat.eqb]. destruct (Hn _ Hru Hwu Hdu) as [[N2 _]|N2].
      * rewrite N2, (Hz _ W N2). cbn. ring.
      * rewrite N2. cbn [FormsSpec.rsum]. ring.
  - destruct (Nat.eq_dec dim 1) as [D|D].
    { exfalso. assert (Hn : forall e : expr S, expr_rank e = Some 1%nat -> e_dim e = dim -> num_components e = 2%nat).
      { clear -D. intros e H E. unfold expr_rank in H. rewrite E, D in H. cbn [Nat.eqb] in H.
        destruct (Nat.ltb_spec (num_components e) 3); [|discriminate]. injection H as H. lia. }
      pose proof (Hn _ Hrt Hdt). pose proof (Hn _ Hru Hdu). specialize (Hmet2 1%nat). lia. }
    assert (N1 : num_components test = dim) by (rewrite <- Hdt; apply rank1_num; auto; congruence).
    assert (N2 : num_components trial = dim) by (rewrite <- Hdu; apply rank1_num; auto; congruence).
    unfold dotted, contraction, Gf. rewrite N1, N2. destruct (Nat.eqb_spec dim 1); [lia|].
    apply rsum_ext. intros i _. apply rsum_ext. intros j _. ring.
  - exfalso. destruct (rank2_num _ Hwt Hrt) as [N1 D1]. destruct (rank2_num _ Hwu Hru) as [N2 D2].
    specialize (Hmet2 dim). rewrite N1, N2, Hdt, Hdu in Hmet2. rewrite Hdt in D1. nia.
  - exfalso. clear -Hrt. unfold expr_rank in Hrt. destruct (_ =? _)%nat.
    + destruct (Nat.ltb_spec (num_components test) 3); [|discriminate]. injection Hrt as Hrt. lia.
    + destruct (_ =? _)%nat; [discriminate|]. destruct (e_comps test) as [|[|t c] m]; try discriminate.
      destruct (_ =? _)%nat; [discriminate|]. destruct (_ =? _)%nat; discriminate.
Qed.

Lemma rank_le2 : (r <= 2)%nat.
Proof.
  clear -Hrt. unfold expr_rank in Hrt. destruct (_ =? _)%nat.
  + destruct (Nat.ltb_spec (num_components test) 3); [|discriminate]. injection Hrt as Hrt. lia.
  + destruct (_ =? _)%nat; [injection Hrt as Hrt; lia|]. destruct (e_comps test) as [|[|t c] m]; try discriminate.
    destruct (_ =? _)%nat; [injection Hrt as Hrt; lia|]. destruct (_ =? _)%nat; [injection Hrt as Hrt; lia|discriminate].
Qed.

Theorem bilinear_sum trank A : (trank <= 2)%nat ->
  inner_bilinear split ip bcspace co gij trank tsp usp test trial = Some A ->
  lsum A sum = gridsum 0 dim Q (fun x => ev (co_sg co) x * contraction L r dim g test trial U W x) origin.
Proof.
  intros Htr. unfold inner_bilinear. rewrite Hrt. cbn [obind].
  destruct (Nat.eqb_spec trank 0) as [T0|T0]; cbn [orb]; [apply flat_sum|].
  destruct (Nat.eqb_spec r 0) as [R0|R0]; [apply flat_sum|].
  pose proof rank_le2 as R2. assert (Hr : (r = 1 \/ r = 2)%nat) by lia.
  destruct trank as [|[|[|t]]]; try lia; intros H; rewrite Hdt in H.
  - rewrite (concat_opt_sum _ _ _ _ (fun i => gridsum 0 dim Q (fun x => ev (co_sg co) x * rowval i x) origin) H).
    + rewrite lsum_seq, <- (gridsum_rsum dim Q dim). apply gridsum_ext. intros x _. rewrite rsum_scal.
      now rewrite row_contraction.
    + intros i s _ E. eapply rec1_row_sum; exact E.
  - set (P := forall i j, (i < dim)%nat -> (j < dim)%nat -> (r = 2%nat \/ forall x, on_grid dim Q x -> (forall a, (a < dim)%nat -> g i a x = 0) \/ (forall b, (b < dim)%nat -> g j b x = 0))).
    assert (HP : P).
    { intros i j Hi Hj. destruct (rec2_row split ip bcspace co gij tsp usp test trial i j) as [s|] eqn:E.
      - apply rec2_row_sum in E. apply E.
      - exfalso. rewrite concat_opt_none in H; [discriminate|]. apply in_flat_map. exists i. split; [apply in_seq; lia|].
        apply in_map_iff. exists j. split; [exact E|apply in_seq; lia]. }
    rewrite (concat_opt_sum2 _ _ _ _ _ (fun i j => gridsum 0 dim Q (fun x => ev (co_sg co) x * rowval2 i j x) origin) H).
    + rewrite lsum_seq.
      transitivity (gridsum 0 dim Q (fun x => rsum dim (fun i => rsum dim (fun j => ev (co_sg co) x * rowval2 i j x))) origin).
      { rewrite gridsum_rsum. apply rsum_ext. intros i _. rewrite lsum_seq. now rewrite (gridsum_rsum dim Q dim). }
      apply gridsum_ext. intros x Hx. 
      transitivity (ev (co_sg co) x * rsum dim (fun i => rsum dim (fun j => rowval2 i j x))).
      { rewrite <- rsum_scal. apply rsum_ext. intros i _. now rewrite rsum_scal. }
      f_equal. destruct Hr as [E|E].
      * (* rank 1 in a tensor space: only with a metric that vanishes *)
        assert (Hz : forall i j, (i < dim)%nat -> (j < dim)%nat -> (forall a, (a < dim)%nat -> g i a x = 0) \/ (forall b, (b < dim)%nat -> g j b x = 0)).
        { intros i j Hi Hj. destruct (HP i j Hi Hj) as [E'|Hz]; [lia|now apply Hz]. }
        transitivity 0.
        -- rewrite (rsum_ext dim _ (fun _ => 0)), rsum_0; [reflexivity|]. intros i Hi.
           rewrite (rsum_ext dim _ (fun _ => 0)), rsum_0; [reflexivity|]. intros j Hj. unfold rowval2.
           rewrite (rsum_ext dim _ (fun _ => 0)), rsum_0; [reflexivity|]. intros a Ha.
           rewrite (rsum_ext dim _ (fun _ => 0)), rsum_0; [reflexivity|]. intros b Hb.
           destruct (Hz i j Hi Hj) as [Z|Z]; rewrite Z by assumption; ring.
        -- symmetry. rewrite E. cbn [contraction].
           rewrite (rsum_ext dim _ (fun _ => 0)), rsum_0; [reflexivity|]. intros i Hi.
           rewrite (rsum_ext dim _ (fun _ => 0)), rsum_0; [reflexivity|]. intros j Hj.
           destruct (Hz i i Hi Hi) as [Z|Z]; rewrite Z by assumption; ring.
      * rewrite E. reflexivity.
    + intros i j s _ _ E. apply rec2_row_sum in E. apply E.
Qed.
End Form.
