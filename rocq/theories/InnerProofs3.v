(** InnerProofs3.v -- from one pair of terms to the whole form. *)
From Coq Require Import Reals ZArith List Bool Arith Lia Lra String.
From Verif Require Import Base FormsModel FormsSpec FormsProofs FormsProofs2 InnerModel InnerSpec InnerProofs InnerProofs2.
Import ListNotations.
Local Open Scope R_scope.
Local Notation length := List.length.

Section Form.
Context {S : Sym} (L : SymLaws S).
Variable phi : space -> nat -> nat -> R -> R.
Variable quad : space -> rule.
Variable mval : S -> R -> R.
Variable split : S -> option (list (dict S)).
Variable ip : space -> nat -> space -> nat -> S -> option mat.
Variable bcspace : space -> option space.
Variable co : coords S.
Variable gij : nat -> nat -> S.
Variable dim : nat.
Hypothesis Hip : ip_law phi quad mval ip.
Hypothesis Hbc : bc_law bcspace ip.
Hypothesis Hsplit : split_law L mval dim axis_names split.
Hypothesis Hdim : (dim <= 5)%nat.
Variables (tsp usp : nat -> nat -> space).
Hypothesis Hcount : forall q, (count_bc bcspace (usp q) dim <= 1)%nat \/ dim = 2%nat.
Variables (p q : nat) (k : nat -> nat) (l : nat -> space * nat).
Hypothesis Hcol : column bcspace dim (usp q) l.

Notation Q := (fun i => quad (tsp p i)).
Notation U := (basis phi dim (tsp p) p k).
Notation W := (basis phi dim (fun i => fst (l i)) q (fun i => snd (l i))).
Notation sum := (summand dim k l p q).
Notation ev := (ev L). Notation good := (good L).

Lemma item_rows p' q' tt ts b0 b1 dv A : item_mats ip bcspace p' q' tt ts b0 b1 dv = Some A ->
  forall m, In m A -> p_row m = p' /\ p_col m = q'.
Proof.
  unfold item_mats. destruct (all_axes ip bcspace 0 tt ts b0 b1 dv) as [[xs|]|]; try discriminate.
  2:{ intros E. injection E as <-. intros m []. }
  destruct (Req_EM_T (d_coeff dv) 0); [intros E; injection E as <-; intros m []|].
  destruct (bc_mats bcspace (d_coeff dv) p' q' ts xs) as [bcs|] eqn:Eb; [|discriminate].
  intros E. injection E as <-. intros m [<-|Hm]; [split; reflexivity|].
  unfold bc_mats in Eb.
  destruct (existsb _ xs); [|injection Eb as <-; destruct Hm].
  destruct (length xs =? 1).
  { destruct (dm_list xs); [|discriminate]. injection Eb as <-. destruct Hm as [<-|[]]. split; reflexivity. }
  destruct (count_bc bcspace ts (length xs)) as [|[|[|c]]].
  - injection Eb as <-. destruct Hm.
  - destruct (dm_list xs); [|discriminate]. injection Eb as <-. destruct Hm as [<-|[]]. split; reflexivity.
  - destruct xs as [|[m0 [d0 f0]] [|[m1 [d1 f1]] r]]; try discriminate. injection Eb as <-.
    apply in_app_or in Hm. destruct Hm as [Hm|Hm].
    + destruct d1; [|destruct Hm]. destruct Hm as [<-|[]]. split; reflexivity.
    + apply in_app_or in Hm. destruct Hm as [Hm|Hm].
      * destruct d0; [|destruct Hm]. destruct Hm as [<-|[]]. split; reflexivity.
      * destruct d0; [|destruct Hm]. destruct d1; [|destruct Hm].
        destruct (dm_list _); [|destruct Hm]. destruct Hm as [<-|[]]. split; reflexivity.
  - injection Eb as <-. destruct Hm.
Qed.

Definition pair_val (g : S) (t u : term S) (x : pt) : R :=
  ev (co_sg co) x * (ev g x * (ev (t_sc t) x * U (t_ind t) (t_der t) x) * (ev (t_sc u) x * W (t_ind u) (t_der u) x)).

Lemma pair_sum g t u A :
  length (t_der t) = dim ->
  (forall x, on_grid dim Q x -> good (t_sc t) x /\ good (t_sc u) x /\ good (co_sg co) x /\ good g x) ->
  pair_mats split ip bcspace co tsp usp g t u = Some A ->
  lsum A sum = gridsum 0 dim Q (pair_val g t u) origin.
Proof.
  intros Hlt Hg. unfold pair_mats.
  destruct (Nat.eqb_spec (length (t_der t)) (length (t_der u))) as [El|]; [|discriminate]. cbn [negb].
  set (d := dV co (t_sc t) (t_sc u) g).
  assert (Hd : forall x, on_grid dim Q x -> good d x /\
             ev d x = ev (t_sc t) x * ev (t_sc u) x * ev (co_sg co) x * ev g x).
  { intros x Hx. destruct (Hg x Hx) as [G1 [G2 [G3 G4]]].
    assert (Gm : good (s_mul (s_mul (s_mul (t_sc t) (t_sc u)) (co_sg co)) g) x)
      by (repeat apply good_mul; assumption).
    destruct (good_rs L _ x Gm) as [Gd Ed]. split; [exact Gd|].
    unfold d, dV. rewrite Ed, !ev_mul. reflexivity. }
  destruct (s_is0 d) eqn:E0.
  { intros E. injection E as <-. rewrite lsum_nil. symmetry.
    rewrite <- (gridsum_zero dim Q 0 origin). apply gridsum_ext. intros x Hx.
    destruct (Hd x Hx) as [_ Ed]. rewrite (ev_is0 _ L _ _ E0) in Ed. unfold pair_val.
    replace (ev (co_sg co) x * (ev g x * (ev (t_sc t) x * U (t_ind t) (t_der t) x) * (ev (t_sc u) x * W (t_ind u) (t_der u) x)))
      with ((ev (t_sc t) x * ev (t_sc u) x * ev (co_sg co) x * ev g x) * (U (t_ind t) (t_der t) x * W (t_ind u) (t_der u) x)) by ring.
    rewrite <- Ed. ring. }
  destruct (split d) as [items|] eqn:Es; [|discriminate].
  intros Ha.
  destruct (Nat.eq_dec (t_ind t) p) as [Ep|Np].
  2:{ rewrite (concat_opt_sum _ _ _ _ (fun _ => 0) Ha).
      - rewrite lsum_zero by reflexivity. symmetry.
        rewrite <- (gridsum_zero dim Q 0 origin). apply gridsum_ext. intros x _.
        unfold pair_val, basis. apply Nat.eqb_neq in Np. rewrite Np. ring.
      - intros dv s _ Hi. apply lsum_zero. intros m Hm. destruct (item_rows _ _ _ _ _ _ _ _ Hi m Hm) as [Er _].
        unfold summand. rewrite Er. apply Nat.eqb_neq in Np. now rewrite Np. }
  destruct (Nat.eq_dec (t_ind u) q) as [Eq|Nq].
  2:{ rewrite (concat_opt_sum _ _ _ _ (fun _ => 0) Ha).
      - rewrite lsum_zero by reflexivity. symmetry.
        rewrite <- (gridsum_zero dim Q 0 origin). apply gridsum_ext. intros x _.
        unfold pair_val, basis. apply Nat.eqb_neq in Nq. rewrite Nq. ring.
      - intros dv s _ Hi. apply lsum_zero. intros m Hm. destruct (item_rows _ _ _ _ _ _ _ _ Hi m Hm) as [_ Er].
        unfold summand. rewrite Er. apply Nat.eqb_neq in Nq. rewrite Nq. now rewrite andb_false_r. }
  rewrite Ep, Eq in Ha.
  rewrite (concat_opt_sum _ _ _ _
     (fun dv => d_coeff dv * rprod 0 dim (val phi quad mval (tsp p) dv k l (ders (t_der t)) (ders (t_der u)))) Ha).
  2:{ intros dv s _ Hi. eapply item_sum; try eassumption; try congruence. apply Hcount. }
  transitivity (gridsum 0 dim Q (fun x => lsum items (fun dv => d_coeff dv *
     rprod 0 dim (fun i => phi (tsp p i) (k i) (ders (t_der t) i) (x i) * phi (fst (l i)) (snd (l i)) (ders (t_der u) i) (x i)
                           * mval (lookup dv (nth i axis_names ""%string)) (x i)))) origin).
  - rewrite gridsum_lsum. apply lsum_ext. intros dv _.
    etransitivity; [|symmetry; apply (gridsum_sep dim Q (fun i y => phi (tsp p i) (k i) (ders (t_der t) i) y
       * phi (fst (l i)) (snd (l i)) (ders (t_der u) i) y * mval (lookup dv (nth i axis_names ""%string)) y) 0 origin (fun _ => d_coeff dv)); reflexivity].
    reflexivity.
  - apply gridsum_ext. intros x Hx. destruct (Hd x Hx) as [Gd Ed].
    unfold pair_val, basis. rewrite Ep, Eq, !Nat.eqb_refl.
    set (PU := rprod 0 dim (fun i => phi (tsp p i) (k i) (nth i (t_der t) 0%nat) (x i))).
    set (PW := rprod 0 dim (fun i => phi (fst (l i)) (snd (l i)) (nth i (t_der u) 0%nat) (x i))).
    replace (ev (co_sg co) x * (ev g x * (ev (t_sc t) x * PU) * (ev (t_sc u) x * PW)))
      with ((PU * PW) * (ev (t_sc t) x * ev (t_sc u) x * ev (co_sg co) x * ev g x)) by ring.
    rewrite <- Ed. destruct Hsplit as [_ Hs]. rewrite (Hs d items x Es Gd), <- lsum_scal.
    apply lsum_ext. intros dv _. rewrite !rprod_mul. unfold PU, PW, ders. ring.
Qed.

Lemma mean_lsum c V x : mean_comp L c V x = lsum c (fun t => ev (t_sc t) x * V (t_ind t) (t_der t) x).
Proof. reflexivity. Qed.

Definition Gf (ncomp i j : nat) (x : pt) : R := if Nat.eqb ncomp 1 then 1 else ev (gij i j) x.

Lemma comps_sum ncomp i j ct cu A :
  (forall t, In t ct -> length (t_der t) = dim) ->
  (forall x, on_grid dim Q x -> (forall t, In t ct -> good (t_sc t) x) /\ (forall u, In u cu -> good (t_sc u) x)
             /\ good (co_sg co) x /\ good (gij i j) x) ->
  comps_mats split ip bcspace co gij tsp usp dim ncomp i j ct cu = Some A ->
  lsum A sum = gridsum 0 dim Q (fun x => ev (co_sg co) x * (Gf ncomp i j x * mean_comp L ct U x * mean_comp L cu W x)) origin.
Proof.
  intros Hlt Hg. unfold comps_mats.
  destruct (metric gij dim ncomp i j) as [g|] eqn:Em; [|discriminate].
  assert (Hgm : forall x, on_grid dim Q x -> good g x /\ ev g x = Gf ncomp i j x).
  { intros x Hx. unfold metric in Em. unfold Gf. destruct (ncomp =? 1).
    - injection Em as <-. split; [apply (good_int _ L); apply (good_dom _ L) with (co_sg co); now apply Hg|]. now rewrite (ev_int _ L).
    - destruct ((dim <=? i) || (dim <=? j)); [discriminate|]. injection Em as <-. split; [|reflexivity]. now apply Hg. }
  destruct (s_is0 g) eqn:E0.
  { intros E. injection E as <-. rewrite lsum_nil. symmetry.
    rewrite <- (gridsum_zero dim Q 0 origin). apply gridsum_ext. intros x Hx.
    destruct (Hgm x Hx) as [_ Eg]. rewrite <- Eg, (ev_is0 _ L _ _ E0). ring. }
  intros Ha.
  rewrite (concat_opt_sum2 _ _ _ _ _ (fun t u => gridsum 0 dim Q (pair_val g t u) origin) Ha).
  2:{ intros t u s Ht Hu Es. apply pair_sum; [now apply Hlt| |exact Es].
      intros x Hx. destruct (Hg x Hx) as [H1 [H2 [H3 _]]]. destruct (Hgm x Hx). auto. }
  transitivity (gridsum 0 dim Q (fun x => lsum ct (fun t => lsum cu (fun u => pair_val g t u x))) origin).
  { rewrite gridsum_lsum. apply lsum_ext. intros t _. rewrite gridsum_lsum. reflexivity. }
  apply gridsum_ext. intros x Hx. destruct (Hgm x Hx) as [_ Eg]. rewrite !mean_lsum.
  transitivity (lsum ct (fun t => (ev (co_sg co) x * Gf ncomp i j x * lsum cu (fun t => ev (t_sc t) x * W (t_ind t) (t_der t) x))
                                  * (ev (t_sc t) x * U (t_ind t) (t_der t) x))).
  - apply lsum_ext. intros t _. unfold pair_val. rewrite Eg.
    transitivity (lsum cu (fun u => (ev (co_sg co) x * Gf ncomp i j x * (ev (t_sc t) x * U (t_ind t) (t_der t) x))
                                    * (ev (t_sc u) x * W (t_ind u) (t_der u) x))).
    + apply lsum_ext. intros u _. ring.
    + rewrite lsum_scal. ring.
  - rewrite lsum_scal. ring.
Qed.

Lemma inner_sum test trial A :
  wf test -> e_dim test = dim -> grid_ok L quad co gij dim tsp p test trial ->
  inner_mats split ip bcspace co gij tsp usp test trial = Some A ->
  lsum A sum = gridsum 0 dim Q (fun x => ev (co_sg co) x *
     dotted L test trial (num_components test) (num_components trial) (Gf (num_components test)) U W x) origin.
Proof.
  intros Hw Hd Hg. unfold inner_mats.
  destruct (expr_rank test) as [rt|]; [|discriminate]. cbn [obind].
  destruct (expr_rank trial) as [ru|]; [|discriminate]. cbn [obind].
  destruct (rt =? ru); [|discriminate]. cbn [negb]. rewrite Hd.
  intros Ha.
  rewrite (concat_opt_sum2 _ _ _ _ _ (fun i j => gridsum 0 dim Q (fun x => ev (co_sg co) x *
      (Gf (num_components test) i j x * mean L test i U x * mean L trial j W x)) origin) Ha).
  2:{ intros i j s Hi Hj Es. apply comps_sum in Es; [exact Es| |].
      - intros t Ht. rewrite <- Hd. revert Ht. now apply (wf_comp test i Hw).
      - intros x Hx. destruct (Hg x Hx) as [H1 [H2 [H3 H4]]].
        split; [|split; [|split; [exact H3|apply H4]]].
        + intros t. now apply (defined_comp L test x i H1).
        + intros t. now apply (defined_comp L trial x j H2). }
  rewrite lsum_seq. unfold dotted.
  transitivity (gridsum 0 dim Q (fun x => FormsSpec.rsum (num_components test) (fun i =>
      FormsSpec.rsum (num_components trial) (fun j => ev (co_sg co) x *
       (Gf (num_components test) i j x * mean L test i U x * mean L trial j W x)))) origin).
  - rewrite gridsum_rsum. induction (num_components test) as [|n IH] in |- * at 1 3; [reflexivity|].
    cbn [FormsSpec.rsum]. f_equal; [exact IH|]. rewrite lsum_seq.
    rewrite (gridsum_rsum dim Q (num_components trial)). reflexivity.
  - apply gridsum_ext. intros x _.
    assert (Hs : forall n c f, FormsSpec.rsum n (fun i => c * f i) = c * FormsSpec.rsum n f).
    { induction n as [|n IH]; intros c f; cbn; [ring|]. rewrite IH. ring. }
    rewrite <- Hs. induction (num_components test) as [|n IH] in |- * at 1 3; [reflexivity|].
    cbn [FormsSpec.rsum]. f_equal; [exact IH|]. now rewrite <- Hs.
Qed.

Lemma entry_sum A : entry dim A p q k l = lsum A sum.
Proof. reflexivity. Qed.
End Form.
