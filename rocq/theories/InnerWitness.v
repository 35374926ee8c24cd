(** InnerWitness.v -- an instance of what is assumed in InnerSpec.v: a splitting of the expressions of
    FormsWitness.v built from integers, coordinates, their reciprocals, sums and products, and matrices that are the
    quadrature sums.  It shows that the assumptions can be met, and lets the model run on concrete forms. *)
From Coq Require Import Reals ZArith List Bool Arith Lia Lra String.
From Verif Require Import Base FormsModel FormsSpec FormsWitness InnerModel InnerSpec InnerProofs.
Import ListNotations.
Local Open Scope R_scope.

Definition dictA := @mkDict ASym.
Definition prodD (d e : dict ASym) : dict ASym :=
  dictA (d_coeff d * d_coeff e) (map (fun n => (n, AMul (lookup d n) (lookup e n))) axis_names).
Fixpoint splitA (a : ast) : option (list (dict ASym)) :=
  match a with
  | AInt z => Some [dictA (IZR z) []]
  | AVar i => match nth_error axis_names i with Some n => Some [dictA 1 [(n, AVar i)]] | None => None end
  | AInv (AVar i) => match nth_error axis_names i with Some n => Some [dictA 1 [(n, AInv (AVar i))]] | None => None end
  | AAdd a b => match splitA a, splitA b with Some l, Some m => Some (l ++ m) | _, _ => None end
  | AMul a b => match splitA a, splitA b with Some l, Some m => Some (flat_map (fun d => map (prodD d) m) l) | _, _ => None end
  | _ => None
  end.
(** value of a factor *)
Definition mvalA (a : ast) (y : R) : R := aev a (fun _ => y).

Definition term_val (dim : nat) (x : pt) (d : dict ASym) : R :=
  d_coeff d * rprod 0 dim (fun i => mvalA (lookup d (nth i axis_names ""%string)) (x i)).

Lemma lookup_prod d e n : In n axis_names -> lookup (prodD d e) n = AMul (lookup d n) (lookup e n).
Proof. cbn [axis_names In]. intros H. repeat (destruct H as [<-|H]); [reflexivity..|destruct H]. Qed.
Lemma lookup_single i n c (f : ast) j : nth_error axis_names i = Some n -> (j < 5)%nat ->
  lookup (dictA c [(n, f)]) (nth j axis_names ""%string) = if Nat.eqb j i then f else AInt 1.
Proof.
  intros H Hj. assert (Hi : (i < 5)%nat) by (change 5%nat with (List.length axis_names); apply nth_error_Some; congruence).
  do 5 (destruct i as [|i]; [cbn in H; injection H as <-; do 5 (destruct j as [|j]; [reflexivity|]); lia|]). lia.
Qed.
Lemma rprod_one n : forall i f, (forall j, (i <= j < i + n)%nat -> f j = 1) -> rprod i n f = 1.
Proof.
  induction n as [|n IH]; intros i f H; [reflexivity|]. cbn [rprod]. rewrite (H i) by lia. rewrite IH; [ring|]. intros j Hj. apply H. lia.
Qed.
Lemma rprod_pick n : forall i f h, (i <= h < i + n)%nat -> (forall j, (i <= j < i + n)%nat -> j <> h -> f j = 1) -> rprod i n f = f h.
Proof.
  induction n as [|n IH]; intros i f h Hh H; [lia|]. cbn [rprod]. destruct (Nat.eq_dec i h) as [->|N].
  - rewrite rprod_one; [ring|]. intros j Hj. apply H; lia.
  - rewrite (H i) by lia. rewrite (IH (i + 1)%nat f h); [ring|lia|]. intros j Hj. apply H. lia.
Qed.

Lemma prod_term dim x d e : (dim <= 5)%nat -> term_val dim x (prodD d e) = term_val dim x d * term_val dim x e.
Proof.
  intros Hd. unfold term_val. cbn [prodD dictA d_coeff].
  transitivity (d_coeff d * d_coeff e * rprod 0 dim (fun i => mvalA (lookup d (nth i axis_names ""%string)) (x i) * mvalA (lookup e (nth i axis_names ""%string)) (x i))).
  - f_equal. apply rprod_ext. intros j Hj. fold (prodD d e). rewrite lookup_prod; [reflexivity|]. apply nth_In. cbn. lia.
  - rewrite rprod_mul. ring.
Qed.

(** every coordinate must belong to the dimension *)
Fixpoint vars_ok (dim : nat) (a : ast) : Prop :=
  match a with
  | AInt _ => True | AVar i => (i < dim)%nat
  | AAdd a b | AMul a b => vars_ok dim a /\ vars_ok dim b
  | AOpp a | AInv a | ASin a | ACos a => vars_ok dim a
  end.
Definition vars_okb (dim : nat) : ast -> bool :=
  fix f a := match a with
  | AInt _ => true | AVar i => (i <? dim)%nat
  | AAdd a b | AMul a b => f a && f b
  | AOpp a | AInv a | ASin a | ACos a => f a
  end.
Lemma vars_okb_spec dim a : vars_okb dim a = true -> vars_ok dim a.
Proof.
  induction a; cbn; intros H; auto; try (apply andb_prop in H; destruct H; auto). now apply Nat.ltb_lt.
Qed.
Definition splitD (dim : nat) (a : ast) : option (list (dict ASym)) := if vars_okb dim a then splitA a else None.

Lemma splitA_val dim x : (dim <= 5)%nat -> forall a items, vars_ok dim a -> splitA a = Some items -> aev a x = lsum items (term_val dim x).
Proof.
  intros Hd.
  assert (Hone : forall i n f y, nth_error axis_names i = Some n -> (i < dim)%nat -> (forall z, mvalA f z = y z) ->
     y (x i) = lsum [dictA 1 [(n, f)]] (term_val dim x)).
  { intros i n f y Hn Hi Hy. rewrite lsum_cons, lsum_nil. unfold term_val. change (d_coeff (dictA 1 [(n, f)])) with 1.
    rewrite (rprod_pick dim 0 _ i); [|lia|].
    - rewrite (lookup_single i n 1 f i Hn) by lia. rewrite Nat.eqb_refl, Hy. ring.
    - intros j Hj N. rewrite (lookup_single i n 1 f j Hn) by lia.
      apply Nat.eqb_neq in N. rewrite N. reflexivity. }
  induction a as [z|i|a IHa b IHb|a IHa b IHb|a IHa|a IHa|a IHa|a IHa]; intros items Hv H; cbn [splitA] in H; try discriminate.
  - injection H as <-. rewrite lsum_cons, lsum_nil. unfold term_val. cbn [dictA d_coeff].
    rewrite rprod_one; [cbn; ring|]. intros j Hj. reflexivity.
  - destruct (nth_error axis_names i) as [n|] eqn:En; [|discriminate]. injection H as <-.
    apply (Hone i n (AVar i) (fun z => z) En Hv). reflexivity.
  - destruct Hv as [Va Vb]. destruct (splitA a) as [l|]; [|discriminate]. destruct (splitA b) as [m|]; [|discriminate]. injection H as <-.
    cbn [aev]. rewrite lsum_app, (IHa l Va eq_refl), (IHb m Vb eq_refl). reflexivity.
  - destruct Hv as [Va Vb]. destruct (splitA a) as [l|]; [|discriminate]. destruct (splitA b) as [m|]; [|discriminate]. injection H as <-.
    cbn [aev]. rewrite (IHa l Va eq_refl), (IHb m Vb eq_refl), lsum_flat.
    rewrite Rmult_comm, <- lsum_scal. apply lsum_ext. intros d _. rewrite lsum_map.
    rewrite Rmult_comm, <- lsum_scal. apply lsum_ext. intros e _. symmetry. now apply prod_term.
  - destruct a as [|i| | | | | |]; try discriminate.
    destruct (nth_error axis_names i) as [n|] eqn:En; [|discriminate]. injection H as <-.
    apply (Hone i n (AInv (AVar i)) (fun z => / z) En Hv). reflexivity.
Qed.

Lemma splitD_law dim : (dim <= 5)%nat -> split_law ALaws mvalA dim axis_names (splitD dim).
Proof.
  intros Hd. split; [reflexivity|]. intros d items x H _. unfold splitD in H.
  destruct (vars_okb dim d) eqn:E; [|discriminate]. apply vars_okb_spec in E. now apply (splitA_val dim x Hd d items E).
Qed.

(** ** Matrices *)
Definition ipQ (phi : space -> nat -> nat -> R -> R) (quad : space -> rule) (tt : space) (a : nat) (ts : space) (b : nat) (ms : ast) : option mat :=
  Some (mkMat ts (fun k l => product1 (S := ASym) phi quad mvalA tt a ts b ms k l)).
Lemma ipQ_law phi quad : ip_law (S := ASym) phi quad mvalA (ipQ phi quad).
Proof. intros tt a ts b ms. cbn. split; reflexivity. Qed.
(** basis 0 has the boundary basis 1 *)
Definition bc01 (s : space) : option space := match s with O => Some 1%nat | _ => None end.
Lemma bc01_law phi quad : bc_law (S := ASym) bc01 (ipQ phi quad).
Proof. intros ts tsc H. destruct ts; [|discriminate]. injection H as <-. split; [lia|]. discriminate. Qed.

(** monomials with their derivatives, y^(k + s); quadrature with the points 1/2 and 2 *)
Fixpoint dmono (n a : nat) (y : R) : R :=
  match a with O => y ^ n | Datatypes.S a => match n with O => 0 | Datatypes.S n' => INR n * dmono n' a y end end.
Definition phiM (s : space) (k a : nat) (y : R) : R := dmono (k + s) a y.
Definition quadM (s : space) : rule := [(1 / 2, 1); (2, 3)].
(** the metric of polar coordinates (r, theta), and its coordinates *)
Definition gpol (i j : nat) : ast :=
  match i, j with O, O => AInt 1 | 1%nat, 1%nat => AMul (AVar 0) (AVar 0) | _, _ => AInt 0 end.
Definition polA : coords ASym :=
  @mkCoords ASym false true false (fun i => match i with O => AInt 1 | _ => AVar 0 end) (AVar 0) gpol
    (fun i j => match i, j with O, O => AInt 1 | 1%nat, 1%nat => AInv (AMul (AVar 0) (AVar 0)) | _, _ => AInt 0 end)
    (fun _ _ _ => AInt 0).
