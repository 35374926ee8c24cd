(** DealiasProperties.v -- C23: get_dealiased returns the space that was asked for, for every history of calls *)
From Coq Require Import Arith List Bool Lia.
From Verif Require Import DealiasModel.
Import ListNotations.

Section C23.
Context {F : Type} (feqb : F -> F -> bool) (one : F).
Hypothesis feqb_ok : forall x y, feqb x y = true <-> x = y.

(** specification: the answer without memory *)
Definition asked (dim : nat) (r : request F) : result F :=
  match rfactor r with
  | Number x => if feqb x one && negb (rdirect r) then Self else Padded (mkPadded (repeat x dim) (rdirect r))
  | Tuple l => if Nat.eqb (length l) dim then Padded (mkPadded l (rdirect r)) else Fails
  end.

Lemma list_eqb_ok a b : list_eqb feqb a b = true <-> a = b.
Proof.
  revert b. induction a as [|x a IH]; intros [|y b]; cbn; try (split; congruence). rewrite andb_true_iff, feqb_ok, IH. split; [intros [-> ->]; reflexivity|]. intros E. injection E as -> ->. auto.
Qed.
Definition good (d : bool) (c : cache F) : Prop := forall k p, lookup feqb c k = Some p -> p = mkPadded k d.
Lemma lookup_cons k p (c : cache F) k' : lookup feqb ((k, p) :: c) k' = if list_eqb feqb k' k then Some p else lookup feqb c k'.
Proof. reflexivity. Qed.
Lemma step_good dim d (c : cache F) r : good d c -> rdirect r = d -> good d (snd (get_dealiased feqb one dim c r)) /\ fst (get_dealiased feqb one dim c r) = asked dim r.
Proof.
  intros G E. unfold get_dealiased, asked, is_number_one. destruct (rfactor r) as [x|l]; cbn [tuple_of andb].
  - destruct (feqb x one && negb (rdirect r)); [split; [exact G|reflexivity]|]. destruct (lookup feqb c (repeat x dim)) as [p|] eqn:L; cbn [fst snd].
    + split; [exact G|]. rewrite (G _ _ L), E. reflexivity.
    + split; [|reflexivity]. intros k p. rewrite lookup_cons. destruct (list_eqb feqb k (repeat x dim)) eqn:Q; [|apply G]. apply list_eqb_ok in Q. subst k. intros H. injection H as <-. rewrite E. reflexivity.
  - destruct (Nat.eqb (length l) dim); [|split; [exact G|reflexivity]]. destruct (lookup feqb c l) as [p|] eqn:L; cbn [fst snd].
    + split; [exact G|]. rewrite (G _ _ L), E. reflexivity.
    + split; [|reflexivity]. intros k p. rewrite lookup_cons. destruct (list_eqb feqb k l) eqn:Q; [|apply G]. apply list_eqb_ok in Q. subst k. intros H. injection H as <-. rewrite E. reflexivity.
Qed.
Lemma run_good dim d h : forall c : cache F, good d c -> Forall (fun r => rdirect r = d) h -> good d (run feqb one dim c h).
Proof.
  induction h as [|r h IH]; intros c G H; [exact G|]. inversion H; subst. unfold run. cbn [fold_left]. apply (IH _ (proj1 (step_good dim _ c r G eq_refl))). assumption.
Qed.
(** right after every history in which all calls use the same dealias_direct *)
Theorem C23_get_dealiased_partial : forall dim h r, Forall (fun q => rdirect q = rdirect r) h ->
  fst (get_dealiased feqb one dim (run feqb one dim [] h) r) = asked dim r.
Proof.
  intros dim h r H. apply (step_good dim (rdirect r)); [|reflexivity]. apply run_good; [|exact H]. intros k p L. discriminate.
Qed.
(** more precisely: only an earlier call with the same factors and the other flag can go wrong *)
Definition same_key (dim : nat) (q r : request F) : Prop := tuple_of dim (rfactor q) = tuple_of dim (rfactor r).
Definition good_for (dim : nat) (r : request F) (c : cache F) : Prop := forall k p, tuple_of dim (rfactor r) = Some k -> lookup feqb c k = Some p -> p = mkPadded k (rdirect r).
Lemma step_good_for dim r (c : cache F) q : good_for dim r c -> (same_key dim q r -> rdirect q = rdirect r) -> good_for dim r (snd (get_dealiased feqb one dim c q)).
Proof.
  intros G E k p HK. unfold get_dealiased. destruct (is_number_one feqb one (rfactor q) && negb (rdirect q)); [apply G, HK|]. destruct (tuple_of dim (rfactor q)) as [kq|] eqn:T; [|apply G, HK].
  destruct (lookup feqb c kq) as [pq|] eqn:L; cbn [snd]; [apply G, HK|]. rewrite lookup_cons. destruct (list_eqb feqb k kq) eqn:Q; [|apply G, HK]. apply list_eqb_ok in Q. subst kq. intros H. injection H as <-.
  rewrite E; [reflexivity|]. unfold same_key. congruence.
Qed.
Theorem C23_get_dealiased_history_partial : forall dim h r, (forall q, In q h -> same_key dim q r -> rdirect q = rdirect r) ->
  fst (get_dealiased feqb one dim (run feqb one dim [] h) r) = asked dim r.
Proof.
  intros dim h r H. assert (forall h c, good_for dim r c -> (forall q, In q h -> same_key dim q r -> rdirect q = rdirect r) -> good_for dim r (run feqb one dim c h)) as A.
  { clear h H. induction h as [|q h IH]; intros c G H; [exact G|]. unfold run. cbn [fold_left]. apply IH; [|intros q' H'; apply H; right; exact H']. apply step_good_for; [exact G|]. apply H. left. reflexivity. }
  assert (good_for dim r (run feqb one dim [] h)) as G by (apply A; [intros k p _ L; discriminate|exact H]).
  unfold get_dealiased, asked, is_number_one. destruct (rfactor r) as [x|l] eqn:RF; cbn [tuple_of andb].
  - destruct (feqb x one && negb (rdirect r)); [reflexivity|]. destruct (lookup feqb (run feqb one dim [] h) (repeat x dim)) as [p|] eqn:L; [|reflexivity]. cbn. f_equal. apply G; [rewrite RF; reflexivity|exact L].
  - destruct (Nat.eqb (length l) dim) eqn:D; [|reflexivity]. destruct (lookup feqb (run feqb one dim [] h) l) as [p|] eqn:L; [|reflexivity]. cbn. f_equal. apply G; [rewrite RF; cbn; rewrite D; reflexivity|exact L].
Qed.
(** vector spaces with equal components, and one-dimensional spaces (no cache) *)
Theorem C23_vector_partial : forall dim h r, (forall q, In q h -> same_key dim q r -> rdirect q = rdirect r) ->
  fst (vector_get_dealiased feqb one dim (run feqb one dim [] h) r) = asked dim r.
Proof.
  intros dim h r H. unfold vector_get_dealiased. destruct (is_number_one feqb one (rfactor r) && negb (rdirect r)) eqn:E; [|apply C23_get_dealiased_history_partial, H].
  unfold asked. unfold is_number_one in E. destruct (rfactor r); [rewrite E; reflexivity|discriminate].
Qed.
Theorem C23_one_dimension : forall x d, base_get_dealiased feqb one x d = asked 1 (mkReq (Number x) d) /\
  (base_get_dealiased feqb one x d <> Self -> fourier_get_dealiased x d = base_get_dealiased feqb one x d).
Proof.
  intros x d. unfold base_get_dealiased, asked, fourier_get_dealiased. cbn. split; [reflexivity|]. destruct (feqb x one && negb d); [congruence|reflexivity].
Qed.
(** two calls: with the factors (1, 1), then with factor 1 and dealias_direct; the second returns a space
    without dealiasing *)
Theorem C23_cache_refuted : let h := [mkReq (Tuple [one; one]) false] in let r := mkReq (Number one) true in
  fst (get_dealiased feqb one 2 (run feqb one 2 [] h) r) = Padded (mkPadded [one; one] false) /\
  asked 2 r = Padded (mkPadded [one; one] true).
Proof.
  assert (feqb one one = true) as E by (apply feqb_ok; reflexivity). split.
  - unfold run. cbn. unfold get_dealiased. cbn. rewrite andb_false_r. cbn. rewrite E. reflexivity.
  - unfold asked. cbn. rewrite E. reflexivity.
Qed.
Example C23_example : forall x, exists h : list (request F), length h = 2 /\ forall q, In q h -> same_key 2 q (mkReq (Number x) false) -> rdirect q = false.
Proof. intros x. exists [mkReq (Number x) false; mkReq (Tuple [x]) true]. split; [reflexivity|]. intros q [<-|[<-|[]]]; [reflexivity|]. cbn. discriminate. Qed.

(** *** Function.backward(padding_factor): the returned array has the shape of the padded space, as long as all
    calls use the same factors *)
Theorem C23_backward_partial : forall S (shape : list F -> S) dim h f k, tuple_of dim f = Some k -> Forall (fun g => tuple_of dim g = Some k) h ->
  fst (backward_padded shape dim (run_backward shape dim h) f) = Some (shape k).
Proof.
  intros S shape dim h f k Hf H. assert (run_backward shape dim h = None \/ run_backward shape dim h = Some (shape k)) as A.
  { unfold run_backward. assert (forall w, w = None \/ w = Some (shape k) -> fold_left (fun w f => snd (backward_padded shape dim w f)) h w = None \/ fold_left (fun w f => snd (backward_padded shape dim w f)) h w = Some (shape k)) as B; [|apply B; auto].
    clear - H. induction H as [|g h Hg H IH]; intros w Hw; [exact Hw|]. cbn [fold_left]. apply IH. unfold backward_padded. rewrite Hg. destruct Hw as [-> | ->]; cbn; auto. }
  unfold backward_padded. rewrite Hf. destruct A as [-> | ->]; reflexivity.
Qed.
(** the work array of the first factor is used for every later factor *)
Theorem C23_backward_refuted : forall S (shape : list F -> S) dim f g kf kg, tuple_of dim f = Some kf -> tuple_of dim g = Some kg -> shape kf <> shape kg ->
  fst (backward_padded shape dim (run_backward shape dim [f]) g) = Some (shape kf) /\ Some (shape kf) <> Some (shape kg).
Proof. intros S shape dim f g kf kg Hf Hg N. unfold run_backward. cbn [fold_left]. unfold backward_padded. rewrite Hf, Hg. cbn. split; congruence. Qed.
End C23.
Print Assumptions C23_get_dealiased_partial.
Print Assumptions C23_get_dealiased_history_partial.
Print Assumptions C23_vector_partial.
Print Assumptions C23_one_dimension.
Print Assumptions C23_cache_refuted.
Print Assumptions C23_backward_partial.
Print Assumptions C23_backward_refuted.
Example C23_backward_example : tuple_of 2 (Number 3) = Some [3; 3] /\ tuple_of 2 (Tuple [3; 4]) = Some [3; 4] /\ (forall x y : nat, Nat.eqb x y = true <-> x = y).
Proof. split; [reflexivity|split; [reflexivity|apply Nat.eqb_eq]]. Qed.
