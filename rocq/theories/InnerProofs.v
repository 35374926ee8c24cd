(** InnerProofs.v -- the matrices of inner() sum up to the form. *)
From Coq Require Import Reals ZArith List Bool Arith Lia Lra String.
From Verif Require Import Base FormsModel FormsSpec FormsProofs FormsProofs2 InnerModel InnerSpec.
Import ListNotations.
Local Open Scope R_scope.

(** ** Sums and products *)
Lemma lsum_ext {A} (l : list A) f g : (forall a, In a l -> f a = g a) -> lsum l f = lsum l g.
Proof.
  unfold lsum. induction l as [|a l IH]; intros H; [reflexivity|]. cbn.
  rewrite H by now left. rewrite IH; [reflexivity|]. intros b Hb. apply H. now right.
Qed.
Lemma lsum_scal {A} (l : list A) c f : lsum l (fun a => c * f a) = c * lsum l f.
Proof. unfold lsum. induction l as [|a l IH]; cbn; [ring|]. rewrite IH. ring. Qed.
Lemma lsum_add {A} (l : list A) f g : lsum l (fun a => f a + g a) = lsum l f + lsum l g.
Proof. unfold lsum. induction l as [|a l IH]; cbn; [ring|]. rewrite IH. ring. Qed.
Lemma lsum_zero {A} (l : list A) f : (forall a, In a l -> f a = 0) -> lsum l f = 0.
Proof.
  unfold lsum. induction l as [|a l IH]; intros H; [reflexivity|]. cbn.
  rewrite H by now left. rewrite IH; [ring|]. intros b Hb. apply H. now right.
Qed.
Lemma lsum_app {A} (l m : list A) f : lsum (l ++ m) f = lsum l f + lsum m f.
Proof. unfold lsum. induction l as [|a l IH]; cbn; [ring|]. rewrite IH. ring. Qed.
Lemma lsum_map {A B} (h : A -> B) l f : lsum (map h l) f = lsum l (fun a => f (h a)).
Proof. unfold lsum. induction l as [|a l IH]; cbn; [reflexivity|]. now rewrite IH. Qed.
Lemma lsum_cons {A} (a : A) l f : lsum (a :: l) f = f a + lsum l f.
Proof. reflexivity. Qed.
Lemma lsum_nil {A} (f : A -> R) : lsum [] f = 0.
Proof. reflexivity. Qed.
Lemma lsum_flat {A B} (h : A -> list B) l f : lsum (flat_map h l) f = lsum l (fun a => lsum (h a) f).
Proof. induction l as [|a l IH]; [reflexivity|]. cbn [flat_map]. now rewrite lsum_app, IH, lsum_cons. Qed.
Lemma lsum_concat {A} (l : list (list A)) f : lsum (List.concat l) f = lsum l (fun a => lsum a f).
Proof. induction l as [|a l IH]; [reflexivity|]. cbn [List.concat]. now rewrite lsum_app, IH, lsum_cons. Qed.
Lemma lsum_swap {A B} (l : list A) (m : list B) f :
  lsum l (fun a => lsum m (f a)) = lsum m (fun b => lsum l (fun a => f a b)).
Proof.
  induction l as [|a l IH].
  - rewrite lsum_nil. symmetry. now apply lsum_zero.
  - rewrite lsum_cons, IH, <- lsum_add. apply lsum_ext. reflexivity.
Qed.
Lemma lsum_seq n f : lsum (seq 0 n) f = FormsSpec.rsum n f.
Proof.
  induction n as [|n IH]; [reflexivity|]. rewrite seq_S, lsum_app, IH, lsum_cons, lsum_nil. cbn. ring.
Qed.
Lemma rprod_ext n : forall i f g, (forall j, (i <= j < i + n)%nat -> f j = g j) -> rprod i n f = rprod i n g.
Proof.
  induction n as [|n IH]; intros i f g H; [reflexivity|]. cbn.
  rewrite (H i) by lia. rewrite (IH (i + 1)%nat f g); [reflexivity|]. intros j Hj. apply H. lia.
Qed.
Lemma rprod_mul n : forall i f g, rprod i n (fun j => f j * g j) = rprod i n f * rprod i n g.
Proof. induction n as [|n IH]; intros i f g; cbn; [ring|]. rewrite IH. ring. Qed.
Lemma rprod_zero n : forall i f j, (i <= j < i + n)%nat -> f j = 0 -> rprod i n f = 0.
Proof.
  induction n as [|n IH]; intros i f j Hj H; [lia|]. cbn.
  destruct (Nat.eq_dec j i) as [->|N].
  - rewrite H. ring.
  - rewrite (IH (i + 1)%nat f j); [ring|lia|exact H].
Qed.

(** ** Grid sums *)
Lemma gridsum_ext_on n q f g : forall i x,
  (forall y, (forall j, (i <= j < i + n)%nat -> In (y j) (map fst (q j))) ->
             (forall j, (j < i)%nat -> y j = x j) -> f y = g y) ->
  gridsum i n q f x = gridsum i n q g x.
Proof.
  induction n as [|n IH]; intros i x H; cbn.
  - apply H; [lia|reflexivity].
  - apply lsum_ext. intros xw Hxw. f_equal. apply IH. intros y Hy Hb. apply H.
    + intros j Hj. destruct (Nat.eq_dec j i) as [->|N].
      * rewrite Hb by lia. rewrite upd_same. now apply in_map.
      * apply Hy. lia.
    + intros j Hj. rewrite Hb by lia. apply upd_other. lia.
Qed.
Lemma gridsum_ext n q f g x : (forall y, on_grid n q y -> f y = g y) -> gridsum 0 n q f x = gridsum 0 n q g x.
Proof. intros H. apply gridsum_ext_on. intros y Hy _. apply H. intros i Hi. apply Hy. lia. Qed.
Lemma gridsum_scal n q c f : forall i x, gridsum i n q (fun y => c * f y) x = c * gridsum i n q f x.
Proof.
  induction n as [|n IH]; intros i x; cbn; [reflexivity|].
  rewrite <- lsum_scal. apply lsum_ext. intros xw _. rewrite IH. ring.
Qed.
Lemma gridsum_add n q f g : forall i x, gridsum i n q (fun y => f y + g y) x = gridsum i n q f x + gridsum i n q g x.
Proof.
  induction n as [|n IH]; intros i x; cbn; [reflexivity|].
  rewrite <- lsum_add. apply lsum_ext. intros xw _. rewrite IH. ring.
Qed.
Lemma gridsum_zero n q : forall i x, gridsum i n q (fun _ => 0) x = 0.
Proof.
  induction n as [|n IH]; intros i x; cbn; [reflexivity|].
  apply lsum_zero. intros xw _. rewrite IH. ring.
Qed.
Lemma gridsum_lsum {A} (l : list A) n q (f : A -> pt -> R) i x :
  gridsum i n q (fun y => lsum l (fun a => f a y)) x = lsum l (fun a => gridsum i n q (f a) x).
Proof.
  induction l as [|a l IH].
  - apply gridsum_zero.
  - rewrite lsum_cons, <- IH. rewrite <- gridsum_add. reflexivity.
Qed.
Lemma gridsum_rsum n q m (f : nat -> pt -> R) i x :
  gridsum i n q (fun y => FormsSpec.rsum m (fun a => f a y)) x = FormsSpec.rsum m (fun a => gridsum i n q (f a) x).
Proof.
  induction m as [|m IH]; cbn; [apply gridsum_zero|]. now rewrite gridsum_add, IH.
Qed.
(** Fubini for products *)
Lemma gridsum_sep n q F : forall i x (g : pt -> R),
  (forall y, (forall j, (j < i)%nat -> y j = x j) -> g y = g x) ->
  gridsum i n q (fun y => g y * rprod i n (fun j => F j (y j))) x
  = g x * rprod i n (fun j => lsum (q j) (fun xw => snd xw * F j (fst xw))).
Proof.
  induction n as [|n IH]; intros i x g Hg; cbn; [reflexivity|].
  transitivity (lsum (q i) (fun xw => snd xw * (g x * F i (fst xw) * rprod (i + 1) n (fun j => lsum (q j) (fun xw => snd xw * F j (fst xw)))))).
  - apply lsum_ext. intros xw _. f_equal.
    transitivity (gridsum (i + 1) n q (fun y => (g y * F i (y i)) * rprod (i + 1) n (fun j => F j (y j))) (upd x i (fst xw))).
    + apply gridsum_ext_on. intros y _ _. ring.
    + rewrite (IH (i + 1)%nat (upd x i (fst xw)) (fun y => g y * F i (y i))).
      * rewrite upd_same. rewrite (Hg (upd x i (fst xw))); [reflexivity|].
        intros j Hj. apply upd_other. lia.
      * intros y Hy. rewrite (Hy i) by lia. rewrite (Hg y), (Hg (upd x i (fst xw))); [reflexivity| |].
        -- intros j Hj. apply upd_other. lia.
        -- intros j Hj. rewrite Hy by lia. apply upd_other. lia.
  - set (P := rprod (i + 1) n _).
    transitivity (lsum (q i) (fun xw => (g x * P) * (snd xw * F i (fst xw)))).
    + apply lsum_ext. intros. ring.
    + rewrite lsum_scal. ring.
Qed.

(** ** Option lists *)
Lemma concat_opt_some {A} (l : list (option (list A))) r : concat_opt l = Some r ->
  exists rs, l = map Some rs /\ r = List.concat rs.
Proof.
  unfold concat_opt. destruct (opt_all l) as [rs|] eqn:E; [|discriminate].
  intros H. injection H as <-. exists rs. split; [now apply opt_all_some|reflexivity].
Qed.
Lemma concat_opt_sum {A B} (h : B -> option (list A)) (l : list B) r f (v : B -> R) :
  concat_opt (map h l) = Some r ->
  (forall b s, In b l -> h b = Some s -> lsum s f = v b) ->
  lsum r f = lsum l v.
Proof.
  intros H Hv. apply concat_opt_some in H. destruct H as [rs [E ->]].
  rewrite lsum_concat. revert rs E Hv. induction l as [|b l IH]; intros [|s rs] E Hv; cbn in E; try discriminate.
  - reflexivity.
  - injection E as E1 E2. rewrite !lsum_cons. rewrite (Hv b s) by (auto; now left).
    f_equal. apply (IH rs E2). intros b' s' Hb. apply Hv. now right.
Qed.
Lemma flat_map_map {A B C} (h : A -> B -> C) (l : list A) (m : A -> list B) :
  flat_map (fun a => map (h a) (m a)) l = map (fun ab => h (fst ab) (snd ab)) (flat_map (fun a => map (pair a) (m a)) l).
Proof.
  induction l as [|a l IH]; [reflexivity|]. cbn. rewrite map_app, IH, map_map. reflexivity.
Qed.
Lemma concat_opt_sum2 {A B C} (h : B -> C -> option (list A)) (l : list B) (m : B -> list C) r f (v : B -> C -> R) :
  concat_opt (flat_map (fun b => map (h b) (m b)) l) = Some r ->
  (forall b c s, In b l -> In c (m b) -> h b c = Some s -> lsum s f = v b c) ->
  lsum r f = lsum l (fun b => lsum (m b) (v b)).
Proof.
  intros H Hv. rewrite flat_map_map in H.
  rewrite (concat_opt_sum _ _ r f (fun bc => v (fst bc) (snd bc)) H).
  - rewrite lsum_flat. apply lsum_ext. intros b _. now rewrite lsum_map.
  - intros [b c] s Hin E. apply in_flat_map in Hin. destruct Hin as [b' [Hb' Hin]].
    apply in_map_iff in Hin. destruct Hin as [c' [Ec Hc]]. injection Ec as -> ->.
    apply Hv; assumption.
Qed.

Lemma opt_all_app {A} (l m : list (option A)) : opt_all (l ++ m) =
  match opt_all l, opt_all m with Some a, Some b => Some (a ++ b) | _, _ => None end.
Proof.
  induction l as [|[a|] l IH]; cbn [app opt_all obind].
  - now destruct (opt_all m).
  - rewrite IH. destruct (opt_all l), (opt_all m); reflexivity.
  - reflexivity.
Qed.
Lemma concat_opt_app {A} (l m : list (option (list A))) : concat_opt (l ++ m) =
  match concat_opt l, concat_opt m with Some a, Some b => Some (a ++ b) | _, _ => None end.
Proof.
  unfold concat_opt. rewrite opt_all_app. destruct (opt_all l), (opt_all m); try reflexivity.
  now rewrite concat_app.
Qed.
Lemma concat_opt_flat {A B} (F : B -> list (option (list A))) (l : list B) r f (v : B -> R) :
  concat_opt (flat_map F l) = Some r ->
  (forall b s, In b l -> concat_opt (F b) = Some s -> lsum s f = v b) ->
  lsum r f = lsum l v.
Proof.
  revert r. induction l as [|b l IH]; intros r H Hv; cbn [flat_map] in H.
  - cbn in H. injection H as <-. reflexivity.
  - rewrite concat_opt_app in H. destruct (concat_opt (F b)) as [s|] eqn:E1; [|discriminate].
    destruct (concat_opt (flat_map F l)) as [t|] eqn:E2; [|discriminate]. injection H as <-.
    rewrite lsum_app, lsum_cons, (Hv b s) by (auto; now left). f_equal.
    apply (IH t eq_refl). intros b' s' Hb. apply Hv. now right.
Qed.
Lemma concat_opt_In {A B} (h : B -> option (list A)) (l : list B) r x :
  concat_opt (map h l) = Some r -> In x r -> exists b s, In b l /\ h b = Some s /\ In x s.
Proof.
  intros H Hx. apply concat_opt_some in H. destruct H as [rs [E ->]]. apply in_concat in Hx.
  destruct Hx as [s [Hs Hx]]. assert (Hin : In (Some s) (map h l)) by (rewrite E; now apply in_map).
  apply in_map_iff in Hin. destruct Hin as [b [Eb Hb]]. exists b, s. auto.
Qed.
