(** CoordWitness.v -- an instance of what is assumed of sympy (FormsSpec.SymLaws, CoordSpec.SymSLaws), as in
    FormsWitness.v and with square roots; the coordinates are assumed positive (the domain x_0 > 0, x_1 > 0). *)
From Coq Require Import Reals ZArith List Bool Arith Lia Lra.
From Verif Require Import FormsModel FormsSpec FormsProofs CoordModel CoordSpec.
Import ListNotations.
Local Open Scope R_scope.

Inductive cst :=
| CInt (z : Z) | CVar (i : nat) | CAdd (a b : cst) | CMul (a b : cst) | COpp (a : cst) | CInv (a : cst)
| CSin (a : cst) | CCos (a : cst) | CSqrt (a : cst).

Fixpoint cev (a : cst) (x : pt) : R :=
  match a with
  | CInt z => IZR z | CVar i => x i
  | CAdd a b => cev a x + cev b x | CMul a b => cev a x * cev b x
  | COpp a => - cev a x | CInv a => / cev a x
  | CSin a => sin (cev a x) | CCos a => cos (cev a x) | CSqrt a => sqrt (cev a x)
  end.
Fixpoint cgood (a : cst) (x : pt) : Prop :=
  match a with
  | CInt _ | CVar _ => True
  | CAdd a b | CMul a b => cgood a x /\ cgood b x
  | COpp a | CSin a | CCos a => cgood a x
  | CInv a => cgood a x /\ cev a x <> 0
  | CSqrt a => cgood a x /\ 0 < cev a x
  end.
Fixpoint cdiff (i : nat) (a : cst) : cst :=
  match a with
  | CInt _ => CInt 0
  | CVar j => CInt (if Nat.eqb j i then 1 else 0)
  | CAdd a b => CAdd (cdiff i a) (cdiff i b)
  | CMul a b => CAdd (CMul (cdiff i a) b) (CMul a (cdiff i b))
  | COpp a => COpp (cdiff i a)
  | CInv a => COpp (CMul (cdiff i a) (CMul (CInv a) (CInv a)))
  | CSin a => CMul (CCos a) (cdiff i a)
  | CCos a => COpp (CMul (CSin a) (cdiff i a))
  | CSqrt a => CMul (cdiff i a) (CInv (CMul (CInt 2) (CSqrt a)))
  end.
Definition cadd (a b : cst) : cst :=
  match a, b with
  | CInt x, CInt y => CInt (x + y)
  | CInt 0, b => b
  | a, CInt 0 => a
  | a, b => CAdd a b
  end.
Definition cmul (a b : cst) : cst :=
  match a, b with
  | CInt x, CInt y => CInt (x * y)
  | CInt 0, _ => CInt 0
  | _, CInt 0 => CInt 0
  | CInt 1, b => b
  | a, CInt 1 => a
  | a, b => CMul a b
  end.
Definition copp (a : cst) : cst := match a with CInt x => CInt (- x) | a => COpp a end.
Fixpoint csimp (a : cst) : cst :=
  match a with
  | CInt z => CInt z | CVar i => CVar i
  | CAdd a b => cadd (csimp a) (csimp b) | CMul a b => cmul (csimp a) (csimp b)
  | COpp a => copp (csimp a) | CInv a => CInv (csimp a)
  | CSin a => CSin (csimp a) | CCos a => CCos (csimp a) | CSqrt a => CSqrt (csimp a)
  end.
Definition cis0 (a : cst) : bool := match a with CInt 0 => true | _ => false end.


Lemma cadd_ev a b x : cev (cadd a b) x = cev a x + cev b x.
Proof.
  destruct a as [[|p|p]| | | | | | | |], b as [[|q|q]| | | | | | | |]; cbn [cadd cev]; rewrite <- ?plus_IZR; try reflexivity; try ring.
Qed.
Lemma cadd_good a b x : cgood a x -> cgood b x -> cgood (cadd a b) x.
Proof.
  intros H G. destruct a as [[|p|p]| | | | | | | |], b as [[|q|q]| | | | | | | |]; cbn in *; tauto.
Qed.
Lemma cmul_ev a b x : cev (cmul a b) x = cev a x * cev b x.
Proof.
  destruct a as [[|[p|p|]|p]| | | | | | | |], b as [[|[q|q|]|q]| | | | | | | |]; cbn [cmul cev]; rewrite <- ?mult_IZR; try reflexivity; try ring.
Qed.
Lemma cmul_good a b x : cgood a x -> cgood b x -> cgood (cmul a b) x.
Proof.
  intros H G. destruct a as [[|[p|p|]|p]| | | | | | | |], b as [[|[q|q|]|q]| | | | | | | |]; cbn in *; tauto.
Qed.
Lemma copp_ev a x : cev (copp a) x = - cev a x.
Proof. destruct a; cbn [copp cev]; try reflexivity. apply opp_IZR. Qed.
Lemma copp_good a x : cgood a x -> cgood (copp a) x.
Proof. destruct a; cbn; tauto. Qed.
Lemma csimp_ev a x : cev (csimp a) x = cev a x.
Proof.
  induction a; cbn [csimp cev]; rewrite ?cadd_ev, ?cmul_ev, ?copp_ev; cbn [cev]; congruence.
Qed.
Lemma csimp_good a x : cgood a x -> cgood (csimp a) x.
Proof.
  induction a; cbn [csimp cgood]; intros H; try tauto.
  - apply cadd_good; tauto.
  - apply cmul_good; tauto.
  - apply copp_good; tauto.
  - split; [tauto|]. rewrite csimp_ev. tauto.
  - split; [tauto|]. rewrite csimp_ev. tauto.
Qed.
Lemma sqrt_nz a : 0 < a -> 2 * sqrt a <> 0.
Proof. intros H. pose proof (sqrt_lt_R0 a H). lra. Qed.
Lemma cdiff_good i a x : cgood a x -> cgood (cdiff i a) x.
Proof.
  induction a; cbn [cdiff cgood]; try tauto. intros [H P]. split; [tauto|]. split; [tauto|]. cbn [cev]. apply sqrt_nz, P.
Qed.

Lemma cdiff_ev i a x : cgood a x -> partial i (cev a) x (cev (cdiff i a) x).
Proof.
  induction a as [z|j|a IHa b IHb|a IHa b IHb|a IHa|a IHa|a IHa|a IHa|a IHa]; cbn [cdiff cgood]; intros H.
  - cbn. apply partial_const.
  - cbn [cev]. unfold partial, shift. destruct (Nat.eqb_spec j i).
    + replace (IZR 1) with (0 + 1) by ring. apply (derivable_pt_lim_plus (fun _ => x j) (fun h => h)); [apply derivable_pt_lim_const|apply derivable_pt_lim_id].
    + apply derivable_pt_lim_const.
  - cbn [cev]. apply (partial_plus i (cev a) (cev b)); tauto.
  - cbn [cev]. apply (partial_mult i (cev a) (cev b)); tauto.
  - cbn [cev]. apply (partial_opp i (cev a)); tauto.
  - cbn [cev]. destruct H as [H N]. specialize (IHa H).
    assert (E : partial i (fun y => 1 / cev a y) x (- (cev (cdiff i a) x * (/ cev a x * / cev a x)))).
    { unfold partial in *.
      pose proof (derivable_pt_lim_div (fun _ => 1) (fun h => cev a (shift x i h)) 0 0 (cev (cdiff i a) x) (derivable_pt_lim_const 1 0) IHa) as D.
      cbv beta in D. rewrite shift_0 in D. specialize (D N).
      replace (- (cev (cdiff i a) x * (/ cev a x * / cev a x))) with ((0 * cev a x - cev (cdiff i a) x * 1) / Rsqr (cev a x)); [exact D|].
      unfold Rsqr. field. exact N. }
    eapply partial_near; [|exact E]. apply near_all. intros y. cbn [cev]. unfold Rdiv. ring.
  - cbn [cev]. unfold partial in *. specialize (IHa H).
    pose proof (derivable_pt_lim_comp (fun h => cev a (shift x i h)) sin 0 _ _ IHa (derivable_pt_lim_sin _)) as D.
    rewrite shift_0 in D. exact D.
  - cbn [cev]. unfold partial in *. specialize (IHa H).
    pose proof (derivable_pt_lim_comp (fun h => cev a (shift x i h)) cos 0 _ _ IHa (derivable_pt_lim_cos _)) as D.
    rewrite shift_0 in D. replace (- (sin (cev a x) * cev (cdiff i a) x)) with (- sin (cev a x) * cev (cdiff i a) x) by ring. exact D.
  - destruct H as [H P]. cbn [cev]. unfold partial in *. specialize (IHa H).
    assert (Ds : derivable_pt_lim sqrt (cev a (shift x i 0)) (/ (2 * sqrt (cev a x)))) by (rewrite shift_0; apply derivable_pt_lim_sqrt, P).
    pose proof (derivable_pt_lim_comp (fun h => cev a (shift x i h)) sqrt 0 _ _ IHa Ds) as D.
    replace (cev (cdiff i a) x * / (2 * sqrt (cev a x))) with (/ (2 * sqrt (cev a x)) * cev (cdiff i a) x) by ring. exact D.
Qed.

Lemma cgood_open a x i : cgood a x -> exists d, 0 < d /\ forall h, Rabs h < d -> cgood a (shift x i h).
Proof.
  change (cgood a x -> near i x (cgood a)).
  induction a as [z|j|a IHa b IHb|a IHa b IHb|a IHa|a IHa|a IHa|a IHa|a IHa]; cbn [cgood]; intros H; try (apply near_all; cbn; tauto).
  1,2: eapply near_imp; [|apply near_and; [apply IHa|apply IHb]; tauto]; cbn; tauto.
  1,3,4: apply IHa, H.
  2: { destruct H as [H P]. eapply near_imp; [|apply near_and; [apply IHa, H|]].
    { intros y Hy. exact Hy. }
    assert (C : continuity_pt (fun h => cev a (shift x i h)) 0).
    { apply derivable_continuous_pt. exists (cev (cdiff i a) x). apply cdiff_ev, H. }
    destruct (C (cev a x) P) as (d & Hd & K). exists d. split; [exact Hd|]. intros h Hh.
    destruct (Req_dec h 0) as [->|Hz]; [rewrite shift_0; exact P|].
    specialize (K h). unfold dist in K. cbn in K. unfold R_dist in K.
    assert (Q : Rabs (cev a (shift x i h) - cev a (shift x i 0)) < cev a x).
    { apply K. split; [split; [exact I|auto]|]. rewrite Rminus_0_r. exact Hh. }
    rewrite shift_0 in Q. apply Rabs_def2 in Q. lra. }
  destruct H as [H N]. eapply near_imp; [|apply near_and; [apply IHa, H|]].
  { intros y Hy. exact Hy. }
  assert (C : continuity_pt (fun h => cev a (shift x i h)) 0).
  { apply derivable_continuous_pt. exists (cev (cdiff i a) x). apply cdiff_ev, H. }
  assert (P : 0 < Rabs (cev a x)) by (apply Rabs_pos_lt, N).
  destruct (C (Rabs (cev a x)) P) as (d & Hd & K). exists d. split; [exact Hd|]. intros h Hh E.
  destruct (Req_dec h 0) as [->|Hz].
  - rewrite shift_0 in E. contradiction.
  - specialize (K h). unfold dist in K. cbn in K. unfold R_dist in K.
    assert (Q : Rabs (cev a (shift x i h) - cev a (shift x i 0)) < Rabs (cev a x)).
    { apply K. split; [split; [exact I|auto]|]. rewrite Rminus_0_r. exact Hh. }
    rewrite E, shift_0, Rminus_0_l, Rabs_Ropp in Q. lra.
Qed.

Lemma cdiff_swap i j a x : cev (cdiff i (cdiff j a)) x = cev (cdiff j (cdiff i a)) x.
Proof.
  induction a; cbn [cdiff cev]; try reflexivity; rewrite ?IHa1, ?IHa2, ?IHa; try ring.
Qed.


Definition CSym : SymS := mkSymS (mkSym cst CInt CAdd CMul COpp CInv cdiff csimp (fun a => a) cis0) CSqrt
  (fun a => match a with CInt 1 => true | _ => false end).
Definition cdom (x : pt) : Prop := 0 < x 0%nat /\ 0 < x 1%nat.
Lemma pos_open x i k : 0 < x k -> near i x (fun z => 0 < z k).
Proof.
  intros H. exists (x k). split; [exact H|]. intros h Hh. unfold shift. destruct (Nat.eqb k i); [|exact H].
  apply Rabs_def2 in Hh. lra.
Qed.
Definition CLaws : SymSLaws CSym.
Proof.
  unshelve eapply (mkSLaws CSym).
  - refine (mkLaws CSym cev (fun a x => cgood a x /\ cdom x) cdom _ _ _ _ _ _ _ _ _ _ _ _ _ _ _ _ _ _ _ _); cbn; try reflexivity; try tauto.
    + intros i a x [H D]. split; [apply cdiff_good; assumption|exact D].
    + intros a x [H D]. split; [apply csimp_good; assumption|exact D].
    + intros a x i [H D]. apply (near_and i x (cgood a) cdom); [exact (cgood_open a x i H)|].
      apply near_and; apply pos_open, D.
    + intros i a x H. apply cdiff_ev, H.
    + intros. apply cdiff_swap.
    + intros. apply csimp_ev.
    + intros [[|p|p]| | | | | | | |] x H; try discriminate. reflexivity.
  - reflexivity.
  - cbn. tauto.
  - intros [[|[p|p|]|p]| | | | | | | |] x H; try discriminate. reflexivity.
Defined.
