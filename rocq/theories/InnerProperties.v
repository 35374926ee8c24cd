(** InnerProperties.v -- C49: inner() assembles the discrete inner product. *)
From Coq Require Import Reals ZArith List Bool Arith Lia Lra String.
From Verif Require Import Base FormsModel FormsSpec FormsProofs FormsProofs2 FormsProofs3 FormsWitness InnerModel InnerSpec InnerProofs InnerProofs2 InnerProofs3 InnerProofs4 InnerProofs5 InnerProofs6 InnerWitness.
Import ListNotations.
Local Open Scope R_scope.
Local Notation length := List.length.
Local Notation rsum := FormsSpec.rsum.

Lemma one_bc_count bcspace dim ts : at_most_one_bc bcspace dim ts -> (count_bc bcspace ts dim <= 1)%nat.
Proof.
  intros H. unfold count_bc.
  destruct (filter _ (seq 0 dim)) as [|a [|b r]] eqn:E; cbn; try lia. exfalso.
  assert (Hin : forall c, In c [a; b] -> (c < dim)%nat /\ bcspace (ts c) <> None).
  { intros c Hc. assert (Hf : In c (filter (fun i => match bcspace (ts i) with Some _ => true | None => false end) (seq 0 dim))).
    { rewrite E. destruct Hc as [<-|[<-|[]]]; [now left|right; now left]. }
    apply filter_In in Hf. destruct Hf as [H1 H2]. apply in_seq in H1. split; [lia|]. destruct (bcspace (ts c)); [discriminate|discriminate]. }
  destruct (Hin a) as [A1 A2]; [now left|]. destruct (Hin b) as [B1 B2]; [right; now left|].
  pose proof (H a b A1 B1 A2 B2) as Eab. subst b.
  assert (Hn : NoDup (filter (fun i => match bcspace (ts i) with Some _ => true | None => false end) (seq 0 dim))) by apply NoDup_filter, seq_NoDup.
  rewrite E in Hn. inversion Hn as [|? ? Hx]. apply Hx. now left.
Qed.

(** Every entry of the sum of the matrices returned for a bilinear form is the discrete inner product of the test
    expression, with the test function k of component p, and the trial expression, with the trial function l of
    component q; the trial functions include those of the boundary bases.  [trank] is the tensor rank of the test
    space and [r] the rank of the expressions. *)
Theorem C49_bilinear_partial : forall (S : Sym) (L : SymLaws S) phi quad mval split ip bcspace (co : coords S) gij dim,
  ip_law phi quad mval ip -> bc_law bcspace ip -> split_law L mval dim axis_names split -> (dim <= 5)%nat ->
  forall tsp usp, (forall q, at_most_one_bc bcspace dim (usp q)) \/ dim = 2%nat ->
  forall trank r (test trial : expr S) A, (trank <= 2)%nat -> wf test -> wf trial -> e_dim test = dim -> e_dim trial = dim ->
  expr_rank test = Some r -> expr_rank trial = Some r ->
  inner_bilinear split ip bcspace co gij trank tsp usp test trial = Some A ->
  forall p q k l, grid_ok L quad co gij dim tsp p test trial -> column bcspace dim (usp q) l ->
  entry dim A p q k l = form phi quad tsp dim (ev L (co_sg co)) (contraction L r dim (fun i j => ev L (gij i j)) test trial) p q k l.
Proof.
  intros S L phi quad mval split ip bcspace co gij dim Hip Hbc Hs Hd tsp usp Hc trank r test trial A Ht Hwt Hwu Hdt Hdu Hrt Hru H p q k l Hg Hl.
  rewrite entry_sum. unfold form.
  assert (Hcount : forall q, (count_bc bcspace (usp q) dim <= 1)%nat \/ dim = 2%nat).
  { intros q'. destruct Hc as [Hc|Hc]; [left; apply one_bc_count, Hc|now right]. }
  exact (bilinear_sum L phi quad mval split ip bcspace co gij dim Hip Hbc Hs Hd tsp usp Hcount p q k l Hl test trial r Hwt Hwu Hdt Hdu Hrt Hru Hg trank A Ht H).
Qed.
Print Assumptions C49_bilinear_partial.

(** The linear form: component p of the output, at k, is the discrete inner product of the test expression and the
    expression with the Function in the place of the trial function. *)
Theorem C49_linear_partial : forall (S : Sym) (L : SymLaws S) phi quad mval split ip bcspace (co : coords S) gij dim,
  ip_law phi quad mval ip -> bc_law bcspace ip -> split_law L mval dim axis_names split -> (dim <= 5)%nat ->
  forall tsp usp, (forall q, at_most_one_bc bcspace dim (usp q)) \/ dim = 2%nat ->
  forall trank r (test trial : expr S) p k n uhat v, (trank <= 2)%nat -> wf test -> wf trial -> e_dim test = dim -> e_dim trial = dim ->
  expr_rank test = Some r -> expr_rank trial = Some r -> own_component trank r dim test p ->
  grid_ok L quad co gij dim tsp p test trial ->
  inner_linear split ip bcspace co gij trank tsp usp test trial p k n uhat = Some v ->
  v = gridsum 0 dim (fun i => quad (tsp p i)) (fun x => ev L (co_sg co) x *
        contraction L r dim (fun i j => ev L (gij i j)) test trial (basis phi dim (tsp p) p k)
          (expansion phi bcspace dim usp n uhat) x) origin.
Proof.
  intros S L phi quad mval split ip bcspace co gij dim Hip Hbc Hs Hd tsp usp Hc trank r test trial p k n uhat v Ht Hwt Hwu Hdt Hdu Hrt Hru Ho Hg H.
  assert (Hcount : forall q, (count_bc bcspace (usp q) dim <= 1)%nat \/ dim = 2%nat).
  { intros q'. destruct Hc as [Hc|Hc]; [left; apply one_bc_count, Hc|now right]. }
  assert (Hr : (r <= 2)%nat) by (eapply rank_le2; eassumption).
  destruct (own_local dim p test r trank Ho Ht Hr) as [Hloc Hp].
  assert (Hnq : exists nq, forall c, term_of trial c -> (c < nq)%nat).
  { clear. set (l := flat_map (fun c => map t_ind c) (e_comps trial)). exists (Datatypes.S (fold_right Nat.max 0%nat l)).
    intros c (cc & t & H1 & H2 & <-).
    assert (Hin : In (t_ind t) l) by (apply in_flat_map; exists cc; split; [exact H1|now apply in_map]).
    clear -Hin. induction l as [|a l IH]; [destruct Hin|]. destruct Hin as [->|Hin]; cbn [fold_right]; [lia|]. specialize (IH Hin). lia. }
  destruct Hnq as [nq Hnq].
  eapply (linear_form L phi quad mval split ip bcspace co gij dim Hip Hbc Hs Hd tsp usp Hcount p k n uhat nq test trial r Hwt Hwu Hdt Hdu Hrt Hru Hg Hnq trank v Ht Hloc Hp H).
Qed.
Print Assumptions C49_linear_partial.

(** ** Examples *)
(** polar coordinates, a vector space with an inhomogeneous boundary condition in the first direction *)
Definition sp1 (_ i : nat) : space := match i with O => 0%nat | _ => 2%nat end.
Definition vec2 : expr ASym := basis_expr 2 2 0.

Ltac run := lazy -[IZR Rmult Rplus Req_EM_T product1 phiM quadM Rdiv].
Ltac nonzero := match goal with |- context [Req_EM_T ?a 0] => destruct (Req_EM_T a 0) as [?E|_]; [exfalso; lra|] end.

Example C49_example :
  ip_law (S := ASym) phiM quadM mvalA (ipQ phiM quadM) /\ bc_law (S := ASym) bc01 (ipQ phiM quadM) /\
  split_law ALaws mvalA 2 axis_names (splitD 2) /\
  (forall q, at_most_one_bc bc01 2 (sp1 q)) /\
  wf vec2 /\ expr_rank vec2 = Some 1%nat /\ (forall p, grid_ok ALaws quadM polA gpol 2 sp1 p vec2 vec2) /\
  (forall p, (p < 2)%nat -> own_component 1 1 2 vec2 p) /\
  exists A, inner_bilinear (S := ASym) (splitD 2) (ipQ phiM quadM) bc01 polA gpol 1 sp1 sp1 vec2 vec2 = Some A /\ length A = 4%nat /\
    map (fun m => (p_row m, p_col m, map m_trial (p_mats m))) A =
      [(0, 0, [0; 2]); (0, 0, [1; 2]); (1, 1, [0; 2]); (1, 1, [1; 2])]%nat.
Proof.
  split; [apply ipQ_law|]. split; [apply bc01_law|]. split; [apply splitD_law; lia|].
  split. { intros q i j Hi Hj. destruct i as [|[|i]], j as [|[|j]]; cbn; intros; try lia; congruence. }
  split. { intros c [<-|[<-|[]]] t [<-|[]]; reflexivity. }
  split; [reflexivity|].
  split. { intros p x _. repeat split.
    - intros c [<-|[<-|[]]] t [<-|[]]; exact I.
    - intros c [<-|[<-|[]]] t [<-|[]]; exact I.
    - intros [|[|i]] [|[|j]]; cbn; tauto. }
  split. { intros p Hp. split; [exact Hp|]. intros [|[|i]] t Hi Ht; try lia; destruct Ht as [<-|[]]; reflexivity. }
  eexists. split; [|split]; [run; nonzero; nonzero; reflexivity|reflexivity|reflexivity].
Qed.

(** a linear form: the Function with the coefficients 1, 2, .. in the first component *)
Example C49_linear_example : exists v,
  inner_linear (S := ASym) (splitD 2) (ipQ phiM quadM) bc01 polA gpol 1 sp1 sp1 vec2 vec2 0 (fun _ => 0%nat) (fun _ => 2%nat)
    (fun c l => match c with O => INR (snd (cnth l 0) + 1) | _ => 0 end) = Some v /\ v <> 0.
Proof.
  eexists. split; [run; nonzero; reflexivity|].
  lazy -[IZR Rmult Rplus Rdiv]. rewrite ?Rmult_1_l, ?Rmult_1_r. intros E. lra.
Qed.
