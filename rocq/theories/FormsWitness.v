(** FormsWitness.v -- an instance of what is assumed of sympy (FormsSpec.SymLaws): expressions built from
    integers, the coordinates, + * - 1/ sin cos, symbolic differentiation and constant folding.  It shows that
    the assumptions can be met, and lets the model run on concrete expressions. *)
From Coq Require Import Reals ZArith List Bool Arith Lia Lra.
From Verif Require Import FormsModel FormsSpec FormsProofs.
Import ListNotations.
Local Open Scope R_scope.

Inductive ast :=
| AInt (z : Z) | AVar (i : nat) | AAdd (a b : ast) | AMul (a b : ast) | AOpp (a : ast) | AInv (a : ast)
| ASin (a : ast) | ACos (a : ast).

Fixpoint aev (a : ast) (x : pt) : R :=
  match a with
  | AInt z => IZR z | AVar i => x i
  | AAdd a b => aev a x + aev b x | AMul a b => aev a x * aev b x
  | AOpp a => - aev a x | AInv a => / aev a x
  | ASin a => sin (aev a x) | ACos a => cos (aev a x)
  end.
Fixpoint agood (a : ast) (x : pt) : Prop :=
  match a with
  | AInt _ | AVar _ => True
  | AAdd a b | AMul a b => agood a x /\ agood b x
  | AOpp a | ASin a | ACos a => agood a x
  | AInv a => agood a x /\ aev a x <> 0
  end.
Fixpoint adiff (i : nat) (a : ast) : ast :=
  match a with
  | AInt _ => AInt 0
  | AVar j => AInt (if Nat.eqb j i then 1 else 0)
  | AAdd a b => AAdd (adiff i a) (adiff i b)
  | AMul a b => AAdd (AMul (adiff i a) b) (AMul a (adiff i b))
  | AOpp a => AOpp (adiff i a)
  | AInv a => AOpp (AMul (adiff i a) (AMul (AInv a) (AInv a)))
  | ASin a => AMul (ACos a) (adiff i a)
  | ACos a => AOpp (AMul (ASin a) (adiff i a))
  end.
Definition aadd (a b : ast) : ast :=
  match a, b with
  | AInt x, AInt y => AInt (x + y)
  | AInt 0, b => b
  | a, AInt 0 => a
  | a, b => AAdd a b
  end.
Definition amul (a b : ast) : ast :=
  match a, b with
  | AInt x, AInt y => AInt (x * y)
  | AInt 0, _ => AInt 0
  | _, AInt 0 => AInt 0
  | AInt 1, b => b
  | a, AInt 1 => a
  | a, b => AMul a b
  end.
Definition aopp (a : ast) : ast := match a with AInt x => AInt (- x) | a => AOpp a end.
Fixpoint asimp (a : ast) : ast :=
  match a with
  | AInt z => AInt z | AVar i => AVar i
  | AAdd a b => aadd (asimp a) (asimp b) | AMul a b => amul (asimp a) (asimp b)
  | AOpp a => aopp (asimp a) | AInv a => AInv (asimp a)
  | ASin a => ASin (asimp a) | ACos a => ACos (asimp a)
  end.
Definition ais0 (a : ast) : bool := match a with AInt 0 => true | _ => false end.

Definition ASym : Sym := mkSym ast AInt AAdd AMul AOpp AInv adiff asimp (fun a => a) ais0.

Lemma aadd_ev a b x : aev (aadd a b) x = aev a x + aev b x.
Proof.
  destruct a as [[|p|p]| | | | | | |], b as [[|q|q]| | | | | | |]; cbn [aadd aev]; rewrite <- ?plus_IZR; try reflexivity; try ring.
Qed.
Lemma aadd_good a b x : agood a x -> agood b x -> agood (aadd a b) x.
Proof.
  intros H G. destruct a as [[|p|p]| | | | | | |], b as [[|q|q]| | | | | | |]; cbn in *; tauto.
Qed.
Lemma amul_ev a b x : aev (amul a b) x = aev a x * aev b x.
Proof.
  destruct a as [[|[p|p|]|p]| | | | | | |], b as [[|[q|q|]|q]| | | | | | |]; cbn [amul aev]; rewrite <- ?mult_IZR; try reflexivity; try ring.
Qed.
Lemma amul_good a b x : agood a x -> agood b x -> agood (amul a b) x.
Proof.
  intros H G. destruct a as [[|[p|p|]|p]| | | | | | |], b as [[|[q|q|]|q]| | | | | | |]; cbn in *; tauto.
Qed.
Lemma aopp_ev a x : aev (aopp a) x = - aev a x.
Proof. destruct a; cbn [aopp aev]; try reflexivity. apply opp_IZR. Qed.
Lemma aopp_good a x : agood a x -> agood (aopp a) x.
Proof. destruct a; cbn; tauto. Qed.
Lemma asimp_ev a x : aev (asimp a) x = aev a x.
Proof.
  induction a; cbn [asimp aev]; rewrite ?aadd_ev, ?amul_ev, ?aopp_ev; cbn [aev]; congruence.
Qed.
Lemma asimp_good a x : agood a x -> agood (asimp a) x.
Proof.
  induction a; cbn [asimp agood]; intros H; try tauto.
  - apply aadd_good; tauto.
  - apply amul_good; tauto.
  - apply aopp_good; tauto.
  - split; [tauto|]. rewrite asimp_ev. tauto.
Qed.
Lemma adiff_good i a x : agood a x -> agood (adiff i a) x.
Proof. induction a; cbn; tauto. Qed.

Lemma adiff_ev i a x : agood a x -> partial i (aev a) x (aev (adiff i a) x).
Proof.
  induction a as [z|j|a IHa b IHb|a IHa b IHb|a IHa|a IHa|a IHa|a IHa]; cbn [adiff agood]; intros H.
  - cbn. apply partial_const.
  - cbn [aev]. unfold partial, shift. destruct (Nat.eqb_spec j i).
    + replace (IZR 1) with (0 + 1) by ring. apply (derivable_pt_lim_plus (fun _ => x j) (fun h => h)); [apply derivable_pt_lim_const|apply derivable_pt_lim_id].
    + apply derivable_pt_lim_const.
  - cbn [aev]. apply (partial_plus i (aev a) (aev b)); tauto.
  - cbn [aev]. apply (partial_mult i (aev a) (aev b)); tauto.
  - cbn [aev]. apply (partial_opp i (aev a)); tauto.
  - cbn [aev]. destruct H as [H N]. specialize (IHa H).
    assert (E : partial i (fun y => 1 / aev a y) x (- (aev (adiff i a) x * (/ aev a x * / aev a x)))).
    { unfold partial in *.
      pose proof (derivable_pt_lim_div (fun _ => 1) (fun h => aev a (shift x i h)) 0 0 (aev (adiff i a) x) (derivable_pt_lim_const 1 0) IHa) as D.
      cbv beta in D. rewrite shift_0 in D. specialize (D N).
      replace (- (aev (adiff i a) x * (/ aev a x * / aev a x))) with ((0 * aev a x - aev (adiff i a) x * 1) / Rsqr (aev a x)); [exact D|].
      unfold Rsqr. field. exact N. }
    eapply partial_near; [|exact E]. apply near_all. intros y. cbn [aev]. unfold Rdiv. ring.
  - cbn [aev]. unfold partial in *. specialize (IHa H).
    pose proof (derivable_pt_lim_comp (fun h => aev a (shift x i h)) sin 0 _ _ IHa (derivable_pt_lim_sin _)) as D.
    rewrite shift_0 in D. exact D.
  - cbn [aev]. unfold partial in *. specialize (IHa H).
    pose proof (derivable_pt_lim_comp (fun h => aev a (shift x i h)) cos 0 _ _ IHa (derivable_pt_lim_cos _)) as D.
    rewrite shift_0 in D. replace (- (sin (aev a x) * aev (adiff i a) x)) with (- sin (aev a x) * aev (adiff i a) x) by ring. exact D.
Qed.

Lemma agood_open a x i : agood a x -> exists d, 0 < d /\ forall h, Rabs h < d -> agood a (shift x i h).
Proof.
  change (agood a x -> near i x (agood a)).
  induction a as [z|j|a IHa b IHb|a IHa b IHb|a IHa|a IHa|a IHa|a IHa]; cbn [agood]; intros H; try (apply near_all; cbn; tauto).
  1,2: eapply near_imp; [|apply near_and; [apply IHa|apply IHb]; tauto]; cbn; tauto.
  1,3,4: apply IHa, H.
  destruct H as [H N]. eapply near_imp; [|apply near_and; [apply IHa, H|]].
  { intros y Hy. exact Hy. }
  assert (C : continuity_pt (fun h => aev a (shift x i h)) 0).
  { apply derivable_continuous_pt. exists (aev (adiff i a) x). apply adiff_ev, H. }
  assert (P : 0 < Rabs (aev a x)) by (apply Rabs_pos_lt, N).
  destruct (C (Rabs (aev a x)) P) as (d & Hd & K). exists d. split; [exact Hd|]. intros h Hh E.
  destruct (Req_dec h 0) as [->|Hz].
  - rewrite shift_0 in E. contradiction.
  - specialize (K h). unfold dist in K. cbn in K. unfold R_dist in K.
    assert (Q : Rabs (aev a (shift x i h) - aev a (shift x i 0)) < Rabs (aev a x)).
    { apply K. split; [split; [exact I|auto]|]. rewrite Rminus_0_r. exact Hh. }
    rewrite E, shift_0, Rminus_0_l, Rabs_Ropp in Q. lra.
Qed.

Lemma adiff_swap i j a x : aev (adiff i (adiff j a)) x = aev (adiff j (adiff i a)) x.
Proof.
  induction a; cbn [adiff aev]; try reflexivity; rewrite ?IHa1, ?IHa2, ?IHa; try ring.
Qed.

Definition ALaws : SymLaws ASym.
Proof.
  refine (mkLaws ASym aev agood (fun _ => True) _ _ _ _ _ _ _ _ _ _ _ _ _ _ _ _ _ _ _ _); cbn; try reflexivity; try tauto.
  - intros. apply adiff_good. assumption.
  - intros. apply asimp_good. assumption.
  - intros a x i H. apply agood_open, H.
  - intros. apply adiff_ev. assumption.
  - intros. apply adiff_swap.
  - intros. apply asimp_ev.
  - intros [[|p|p]| | | | | | |] x H; try discriminate. reflexivity.
Defined.

(** Cartesian coordinates *)
Definition cartA : coords ASym :=
  @mkCoords ASym true true false (fun _ => AInt 1) (AInt 1) (fun i j => AInt (if Nat.eqb i j then 1 else 0))
           (fun i j => AInt (if Nat.eqb i j then 1 else 0)) (fun _ _ _ => AInt 0).
