(** FormsProperties.v -- C25, C26, C27: what expressions built from test and trial functions denote. *)
From Coq Require Import Reals ZArith List Bool Arith Lia Lra.
From Verif Require Import FormsModel FormsSpec FormsProofs FormsProofs2 FormsProofs3 FormsProofs4 FormsWitness.
Import ListNotations.
Local Open Scope R_scope.

(** * C25 *)
Theorem C25_add : forall (S : Sym) (L : SymLaws S) (e f r : expr S), add e f = Some r ->
  num_components r = num_components e /\
  forall i U y, mean L r i U y = mean L e i U y + mean L f i U y.
Proof. intros S L e f r H. split; [apply add_spec in H; apply H|]. intros. apply add_mean, H. Qed.
Theorem C25_sub : forall (S : Sym) (L : SymLaws S) (e f r : expr S), sub e f = Some r ->
  num_components r = num_components e /\
  forall i U y, mean L r i U y = mean L e i U y - mean L f i U y.
Proof. intros S L e f r H. split; [apply sub_spec in H; apply H|]. intros. apply sub_mean, H. Qed.
(** both return exactly when the numbers of components agree *)
Theorem C25_add_sub_return : forall (S : Sym) (e f : expr S),
  (num_components e = num_components f <-> add e f <> None) /\ (num_components e = num_components f <-> sub e f <> None).
Proof.
  intros S e f. unfold add, sub. destruct (Nat.eqb_spec (num_components e) (num_components f)); split; split; intros; congruence.
Qed.
Theorem C25_neg : forall (S : Sym) (L : SymLaws S) (e : expr S),
  num_components (neg e) = num_components e /\ forall i U y, mean L (neg e) i U y = - mean L e i U y.
Proof. intros. split; [apply neg_like|]. intros. apply neg_mean. Qed.
Theorem C25_mul : forall (S : Sym) (L : SymLaws S) (e : expr S) (a : S) y, defined L e y -> good L a y ->
  forall i U, mean L (mul e a) i U y = mean L e i U y * ev L a y /\ mean L (imul e a) i U y = mean L e i U y * ev L a y.
Proof. intros. split; [apply mul_mean|apply imul_mean]; assumption. Qed.
Theorem C25_mul_number : forall (S : Sym) (L : SymLaws S) (e : expr S) (z : Z) y, defined L e y ->
  forall i U, mean L (mul e (s_int z)) i U y = IZR z * mean L e i U y.
Proof. intros S L e z y D i U. rewrite mul_mean; [|apply (good_int _ L), D|exact D]. rewrite (ev_int _ L). ring. Qed.
Theorem C25_simplify : forall (S : Sym) (L : SymLaws S) (e : expr S) y, defined L e y ->
  num_components (simplify e) = num_components e /\ defined L (simplify e) y /\
  forall i U, mean L (simplify e) i U y = mean L e i U y.
Proof. intros S L e y D. split; [apply simplify_num|]. split; [apply simplify_ok, D|]. intros. apply simplify_mean, D. Qed.
(** afterwards a component has at most one term for every derivative of every component of the basis function *)
Theorem C25_simplify_collects : forall (S : Sym) (e : expr S) c, In c (e_comps (simplify e)) ->
  NoDup (map (fun t => (t_der t, t_ind t)) c).
Proof.
  intros S e c Hc. unfold simplify in Hc. destruct (forallb _ (e_comps e)) eqn:E.
  - rewrite forallb_forall in E. specialize (E c Hc). apply Nat.eqb_eq in E. destruct c as [|t [|u c]]; try discriminate.
    constructor; [intros []|constructor].
  - cbn in Hc. apply in_map_iff in Hc. destruct Hc as (c0 & <- & _). apply simplify_distinct.
Qed.
Print Assumptions C25_add. Print Assumptions C25_sub. Print Assumptions C25_add_sub_return. Print Assumptions C25_neg.
Print Assumptions C25_mul. Print Assumptions C25_mul_number. Print Assumptions C25_simplify. Print Assumptions C25_simplify_collects.

(** x^2 u_xy + sin(y) u, as a concrete expression *)
Definition exA : expr ASym := mkExpr 2 [[@mkTerm ASym [1; 1]%nat (AMul (AVar 0) (AVar 0)) 0; @mkTerm ASym [0; 0]%nat (ASin (AVar 1)) 0]].
Example C25_example : defined ALaws exA (fun _ => 1) /\
  (exists r, add exA exA = Some r /\ map (@length _) (e_comps r) = [4%nat] /\ map (@length _) (e_comps (simplify r)) = [2%nat]) /\
  (exists r, sub exA exA = Some r /\ map (@length _) (e_comps r) = [4%nat]).
Proof.
  split; [split; [exact I|]; intros c [<-|[]] t [<-|[<-|[]]]; cbn; tauto|]. split; eexists; repeat split; reflexivity.
Qed.

(** * C26 *)
Theorem C26_dx : forall (S : Sym) (L : SymLaws S) (co : coords S) (k : nat) (e r : expr S) (i : nat), wf e -> dx co e i k = Some r ->
  num_components r = num_components e /\
  forall m U, exists F : nat -> pt -> R,
    F 0%nat = mean L e m U /\ F k = mean L r m U /\
    forall j y, (j < k)%nat -> defined L e y -> smooth (e_dim e) U y -> partial i (F j) y (F (Datatypes.S j) y).
Proof. intros S L co k e r i W H. destruct (dx_chain L co k e i r H W) as ((_ & N) & _ & _ & C). split; assumption. Qed.
(** the result is defined where the argument is, and Dx can be applied to it again *)
Theorem C26_dx_defined : forall (S : Sym) (L : SymLaws S) (co : coords S) (k : nat) (e r : expr S) (i : nat), wf e -> dx co e i k = Some r ->
  wf r /\ e_dim r = e_dim e /\ forall y, defined L e y -> defined L r y.
Proof. intros S L co k e r i W H. destruct (dx_chain L co k e i r H W) as ((D & _) & Wr & Df & _). auto. Qed.
Lemma dx_returns (S : Sym) (co : coords S) k : forall (e : expr S) i, (i < e_dim e)%nat ->
  num_components e = 1%nat -> exists r, dx co e i k = Some r.
Proof.
  induction k as [|k IH]; intros e i Hi N; [cbn; eauto|]. unfold dx. cbn [dx_loop].
  destruct (dx1_some co e i Hi) as (r & E); [left; apply rank_scalar, N|]. rewrite E. cbn [obind].
  apply (dx1_spec co) in E. destruct E as ((A & B) & _ & _). apply IH; [congruence|congruence].
Qed.
(** a scalar expression can be differentiated in every direction of the domain any number of times, in any coordinates *)
Theorem C26_dx_returns : forall (S : Sym) (co : coords S) k (e : expr S) i, (i < e_dim e)%nat -> num_components e = 1%nat ->
  exists r, dx co e i k = Some r.
Proof. exact dx_returns. Qed.
(** in Cartesian coordinates vectors can be differentiated, too *)
Theorem C26_dx_vector_returns : forall (S : Sym) (co : coords S) (e : expr S) i, co_cart co = true -> wf e -> (1 < e_dim e)%nat ->
  num_components e = e_dim e -> (i < e_dim e)%nat -> nth 0 (e_comps e) [] <> [] -> exists r, dx co e i 1 = Some r.
Proof.
  intros S co e i C W D N Hi H. unfold dx. cbn [dx_loop]. destruct (dx1_some co e i Hi) as (r & E); [|rewrite E; cbn; eauto].
  right. split; [exact C|]. rewrite (rank_head e W D N H). discriminate.
Qed.
(** two directions commute *)
Theorem C26_dx_commutes : forall (S : Sym) (L : SymLaws S) (co : coords S) (e a b ab ba : expr S) (i j : nat), wf e ->
  dx co e i 1 = Some a -> dx co a j 1 = Some ab -> dx co e j 1 = Some b -> dx co b i 1 = Some ba ->
  forall m U y, defined L e y -> mean L ab m U y = mean L ba m U y.
Proof.
  intros S L co e a b ab ba i j W Ha Hab Hb Hba m U y D.
  unfold dx in *. cbn [dx_loop] in *.
  destruct (dx1 co e i) as [a'|] eqn:E1; [|discriminate]. apply some_inj in Ha. subst a'.
  destruct (dx1 co a j) as [a'|] eqn:E2; [|discriminate]. apply some_inj in Hab. subst a'.
  destruct (dx1 co e j) as [a'|] eqn:E3; [|discriminate]. apply some_inj in Hb. subst a'.
  destruct (dx1 co b i) as [a'|] eqn:E4; [|discriminate]. apply some_inj in Hba. subst a'.
  apply (dx1_spec co) in E1, E2, E3, E4. destruct E1 as (_ & _ & E1), E2 as (_ & _ & E2), E3 as (_ & _ & E3), E4 as (_ & _ & E4).
  rewrite !mean_mc, E2, E4, E1, E3. apply dx_swap. exact (defined_comp L e y m D).
Qed.
(** The property does not hold for a test function of a CompositeSpace with, e.g., a vector and a scalar in two dimensions:
    Dx raises because expr_rank knows only 1, ndim and ndim^2 components *)
Theorem C26_composite_refuted : forall (S : Sym) (co : coords S) dim n o i k, (1 < dim)%nat -> (1 < n)%nat -> n <> dim -> n <> (dim ^ 2)%nat ->
  dx co (basis_expr dim n o) i (Datatypes.S k) = None.
Proof.
  intros S co dim n o i k Hd Hn H1 H2. unfold dx. cbn [dx_loop]. unfold dx1. destruct (_ <=? i)%nat; [reflexivity|].
  assert (E : expr_rank (@basis_expr S dim n o) = None); [|rewrite E; reflexivity].
  unfold expr_rank. rewrite basis_num. cbn [e_dim basis_expr]. destruct (Nat.eqb_spec dim 1); [lia|]. destruct (Nat.eqb_spec n 1); [lia|].
  destruct n as [|n]; [lia|]. cbn [e_comps basis_expr seq map t_der]. rewrite repeat_length.
  destruct (Nat.eqb_spec (Datatypes.S n) dim); [lia|]. destruct (Nat.eqb_spec (Datatypes.S n) (dim ^ 2)); [lia|]. reflexivity.
Qed.
Print Assumptions C26_dx. Print Assumptions C26_dx_defined. Print Assumptions C26_dx_returns. Print Assumptions C26_dx_vector_returns.
Print Assumptions C26_dx_commutes. Print Assumptions C26_composite_refuted.
(** Dx(x^2 u_xy + sin(y) u, y) = x^2 u_xyy + sin(y) u_y + cos(y) u *)
Example C26_example : wf exA /\ exists r, dx cartA exA 1 1 = Some r /\
  e_comps r = [[@mkTerm ASym [1; 2]%nat (AMul (AVar 0) (AVar 0)) 0; @mkTerm ASym [0; 1]%nat (ASin (AVar 1)) 0;
                @mkTerm ASym [0; 0]%nat (ACos (AVar 1)) 0]].
Proof. split; [intros c [<-|[]] t [<-|[<-|[]]]; reflexivity|]. eexists. split; reflexivity. Qed.
(** a vector-and-scalar space in two dimensions has three components *)
Example C26_composite_example : dx cartA (basis_expr 2 3 0) 0 1 = None.
Proof. apply C26_composite_refuted; cbn; lia. Qed.

(** * C27 *)
Theorem C27_grad : forall (S : Sym) (L : SymLaws S) (co : coords S), cartesian L co -> forall e g : expr S, wf e ->
  num_components e = 1%nat -> grad co e = Some g ->
  num_components g = e_dim e /\ forall y, defined L e y -> defined L g y /\
    forall i U, (i < e_dim e)%nat -> smooth (e_dim e) U y -> partial i (mean L e 0 U) y (mean L g i U y).
Proof.
  intros S L co HC e g W N H. destruct (grad_scalar L co HC e g W N H) as (_ & Ng & _ & M). split; [exact Ng|].
  intros y D. destruct (M y D) as [D2 M2]. split; [exact D2|]. intros i U Hi HU. rewrite M2 by exact Hi.
  eapply partial_mc; eauto; [exact (defined_comp L e y 0 D)|exact (wf_comp e 0 W)].
Qed.
(** the gradient of a vector: component i, j, stored at i*ndim + j, is du_i/dx_j *)
Theorem C27_grad_vector : forall (S : Sym) (L : SymLaws S) (co : coords S), cartesian L co -> forall e g : expr S, wf e ->
  expr_rank e = Some 1%nat -> (e_dim e <> 1)%nat -> grad co e = Some g ->
  num_components g = (e_dim e * e_dim e)%nat /\ forall y, defined L e y -> defined L g y /\
    forall i j U, (i < e_dim e)%nat -> (j < e_dim e)%nat -> smooth (e_dim e) U y ->
      partial j (mean L e i U) y (mean L g (i * e_dim e + j) U y).
Proof.
  intros S L co HC e g W N D1 H. destruct (grad_vector L co HC e g W N D1 H) as (_ & Ng & _ & M). split; [exact Ng|].
  intros y D. destruct (M y D) as [D2 M2]. split; [exact D2|]. intros i j U Hi Hj HU. rewrite M2 by assumption.
  eapply partial_mc; eauto; [exact (defined_comp L e y i D)|exact (wf_comp e i W)].
Qed.
(** the divergence of a vector is the sum of du_i/dx_i *)
Theorem C27_div : forall (S : Sym) (L : SymLaws S) (co : coords S), cartesian L co -> forall e d : expr S, wf e ->
  (0 < e_dim e)%nat -> num_components e = e_dim e -> div co e = Some d ->
  num_components d = 1%nat /\ forall y, defined L e y -> defined L d y /\
    forall U, smooth (e_dim e) U y -> exists D : nat -> R,
      (forall i, (i < e_dim e)%nat -> partial i (mean L e i U) y (D i)) /\ mean L d 0 U y = rsum (e_dim e) D.
Proof.
  intros S L co HC e d W P N H. destruct (div_any L co HC e d W P N H) as (_ & Nd & _ & M). split; [exact Nd|].
  intros y D. destruct (M y D) as [D2 M2]. split; [exact D2|]. intros U HU.
  exists (fun i => mean_comp L (dx_comp i (comp e i)) U y). split; [|apply M2].
  intros i Hi. eapply partial_mc; eauto; [exact (defined_comp L e y i D)|exact (wf_comp e i W)].
Qed.
Theorem C27_div_tensor : forall (S : Sym) (L : SymLaws S) (co : coords S), cartesian L co -> forall e d : expr S, wf e ->
  expr_rank e = Some 2%nat -> div co e = Some d ->
  num_components d = e_dim e /\ forall y, defined L e y -> defined L d y /\
    forall i U, (i < e_dim e)%nat -> smooth (e_dim e) U y -> exists D : nat -> R,
      (forall j, (j < e_dim e)%nat -> partial j (mean L e (i * e_dim e + j) U) y (D j)) /\ mean L d i U y = rsum (e_dim e) D.
Proof.
  intros S L co HC e d W R H. destruct (div_tensor L co HC e d W R H) as (_ & Nd & _ & M). split; [exact Nd|].
  intros y D. destruct (M y D) as [D2 M2]. split; [exact D2|]. intros i U Hi HU.
  exists (fun j => mean_comp L (dx_comp j (comp e (i * e_dim e + j))) U y). split; [|apply M2, Hi].
  intros j Hj. eapply partial_mc; eauto; [exact (defined_comp L e y _ D)|exact (wf_comp e _ W)].
Qed.
Theorem C27_curl_3d : forall (S : Sym) (L : SymLaws S) (co : coords S), cartesian L co -> forall e w : expr S, wf e ->
  expr_rank e = Some 1%nat -> e_dim e = 3%nat -> curl co e = Some w ->
  num_components w = 3%nat /\ forall y, defined L e y -> defined L w y /\
    forall U, smooth 3 U y -> exists D : nat -> nat -> R,
      (forall i j, (i < 3)%nat -> partial i (mean L e j U) y (D i j)) /\
      mean L w 0 U y = D 1%nat 2%nat - D 2%nat 1%nat /\
      mean L w 1 U y = D 2%nat 0%nat - D 0%nat 2%nat /\
      mean L w 2 U y = D 0%nat 1%nat - D 1%nat 0%nat.
Proof.
  intros S L co HC e w W R D3 H. destruct (curl_3d L co HC e w W R D3 H) as (_ & Nd & _ & M). split; [exact Nd|].
  intros y D. destruct (M y D) as [D2 M2]. split; [exact D2|]. intros U HU.
  exists (fun i j => mean_comp L (dx_comp i (comp e j)) U y). split; [|apply M2].
  intros i j Hi. eapply partial_mc; eauto; [exact (defined_comp L e y _ D)|rewrite <- D3; exact (wf_comp e _ W)].
Qed.
Theorem C27_curl_2d_vector : forall (S : Sym) (L : SymLaws S) (co : coords S), cartesian L co -> forall e w : expr S, wf e ->
  expr_rank e = Some 1%nat -> e_dim e = 2%nat -> curl co e = Some w ->
  num_components w = 1%nat /\ forall y, defined L e y -> defined L w y /\
    forall U, smooth 2 U y -> exists a b, partial 0 (mean L e 1 U) y a /\ partial 1 (mean L e 0 U) y b /\ mean L w 0 U y = a - b.
Proof.
  intros S L co HC e w W R D3 H. destruct (curl_2d_vector L co HC e w W R D3 H) as (_ & Nd & _ & M). split; [exact Nd|].
  intros y D. destruct (M y D) as [D2 M2]. split; [exact D2|]. intros U HU. eexists. eexists. split; [|split; [|apply M2]];
  eapply partial_mc with (dim := 2%nat); eauto; try exact (defined_comp L e y _ D); rewrite <- D3; exact (wf_comp e _ W).
Qed.
Theorem C27_curl_2d_scalar : forall (S : Sym) (L : SymLaws S) (co : coords S), cartesian L co -> forall e w : expr S, wf e ->
  num_components e = 1%nat -> e_dim e = 2%nat -> curl co e = Some w ->
  num_components w = 2%nat /\ forall y, defined L e y -> defined L w y /\
    forall U, smooth 2 U y -> exists a b, partial 1 (mean L e 0 U) y a /\ partial 0 (mean L e 0 U) y b /\
      mean L w 0 U y = a /\ mean L w 1 U y = - b.
Proof.
  intros S L co HC e w W R D3 H. destruct (curl_2d_scalar L co HC e w W R D3 H) as (_ & Nd & _ & M). split; [exact Nd|].
  intros y D. destruct (M y D) as [D2 M2]. split; [exact D2|]. intros U HU. eexists. eexists. split; [|split; [|apply M2]];
  eapply partial_mc with (dim := 2%nat); eauto; try exact (defined_comp L e y _ D); rewrite <- D3; exact (wf_comp e _ W).
Qed.

(** the identities *)
Theorem C27_div_grad_is_laplacian : forall (S : Sym) (L : SymLaws S) (co : coords S), cartesian L co -> forall e g d : expr S, wf e ->
  num_components e = 1%nat -> (0 < e_dim e)%nat -> grad co e = Some g -> div co g = Some d ->
  num_components d = 1%nat /\ forall y, defined L e y -> defined L d y /\
    forall U, (forall z, smooth (e_dim e) U z) -> exists (G : nat -> pt -> R) (H : nat -> R),
      (forall i z, (i < e_dim e)%nat -> defined L e z -> partial i (mean L e 0 U) z (G i z)) /\
      (forall i, (i < e_dim e)%nat -> partial i (G i) y (H i)) /\
      mean L d 0 U y = rsum (e_dim e) H.
Proof.
  intros S L co HC e g d W N P Hg Hd. destruct (div_grad L co HC e g d W N P Hg Hd) as (Nd & _ & M). split; [exact Nd|].
  intros y D. destruct (M y D) as [D2 M2]. split; [exact D2|]. intros U HU.
  exists (fun i => mean_comp L (dx_comp i (comp e 0)) U), (fun i => mean_comp L (dx_comp i (dx_comp i (comp e 0))) U y).
  split; [|split; [|apply M2, HU]].
  - intros i z Hi Dz. eapply partial_mc; eauto; [exact (defined_comp L e z 0 Dz)|exact (wf_comp e 0 W)].
  - intros i Hi. eapply partial_mc; eauto; [apply dx_cdef; exact (defined_comp L e y 0 D)|apply dx_cwf; exact (wf_comp e 0 W)].
Qed.
Theorem C27_curl_grad_is_zero : forall (S : Sym) (L : SymLaws S) (co : coords S), cartesian L co -> forall e g w : expr S, wf e ->
  num_components e = 1%nat -> e_dim e = 2%nat \/ e_dim e = 3%nat -> grad co e = Some g -> curl co g = Some w ->
  num_components w = (if Nat.eqb (e_dim e) 2 then 1%nat else 3%nat) /\
  forall y, defined L e y -> forall k U, smooth (e_dim e) U y -> mean L w k U y = 0.
Proof.
  intros S L co HC e g w W N [D|D] Hg Hw.
  - destruct (curl_grad_2d L co HC e g w W N D Hg Hw) as (Nw & M). split; [rewrite D; exact Nw|]. rewrite D. intros y Dy k U HU.
    destruct (M y Dy) as [_ M2]. destruct k as [|k]; [apply M2, HU|].
    rewrite mean_mc. unfold comp. rewrite nth_overflow; [apply mc_nil|]. unfold num_components in Nw. lia.
  - destruct (curl_grad_3d L co HC e g w W N D Hg Hw) as (Nw & M). split; [rewrite D; exact Nw|]. rewrite D. intros y Dy k U HU.
    destruct (M y Dy) as [_ M2]. apply M2, HU.
Qed.
Theorem C27_div_curl_is_zero : forall (S : Sym) (L : SymLaws S) (co : coords S), cartesian L co -> forall e w d : expr S, wf e ->
  (expr_rank e = Some 1%nat /\ e_dim e = 3%nat) \/ (num_components e = 1%nat /\ e_dim e = 2%nat) ->
  curl co e = Some w -> div co w = Some d ->
  num_components d = 1%nat /\ forall y, defined L e y -> forall U, smooth (e_dim e) U y -> mean L d 0 U y = 0.
Proof.
  intros S L co HC e w d W [[R D]|[R D]] Hw Hd.
  - destruct (div_curl_3d L co HC e w d W R D Hw Hd) as (Nd & M). split; [exact Nd|]. rewrite D. intros y Dy U HU. apply M; assumption.
  - destruct (div_curl_2d L co HC e w d W R D Hw Hd) as (Nd & M). split; [exact Nd|]. rewrite D. intros y Dy U HU. apply M; assumption.
Qed.
(** for test and trial functions all these compositions return *)
Theorem C27_identities_return : forall (S : Sym) (L : SymLaws S) (co : coords S), cartesian L co -> (exists x, dom L x) -> forall o : nat,
  (forall dim, (0 < dim)%nat -> exists g d, grad co (basis_expr dim 1 o) = Some g /\ div co g = Some d) /\
  (forall dim, dim = 2%nat \/ dim = 3%nat -> exists g w, grad co (basis_expr dim 1 o) = Some g /\ curl co g = Some w) /\
  (exists w d, curl co (basis_expr 3 3 o) = Some w /\ div co w = Some d) /\
  (exists w d, curl co (basis_expr 2 1 o) = Some w /\ div co w = Some d).
Proof.
  intros S L co HC (x & Hx) o. split; [intros; apply (div_grad_basis L co HC x Hx); assumption|].
  split; [intros; apply (curl_grad_basis L co HC x Hx); assumption|].
  split; [apply (div_curl_basis_3d L co HC x Hx)|apply (div_curl_basis_2d L co HC x Hx)].
Qed.
(** The results of the identities cannot be used further: simplify leaves a component without terms, and the next operator
    raises IndexError on it, although what it should denote (zero) is clear *)
Theorem C27_zero_results_raise_refuted :
  (exists g w, grad cartA (basis_expr 3 1 0) = Some g /\ curl cartA g = Some w /\ e_comps w = [[]; []; []] /\
     div cartA w = None /\ dx cartA w 0 1 = None /\ curl cartA w = None) /\
  (exists w d, curl cartA (basis_expr 3 3 0) = Some w /\ div cartA w = Some d /\ e_comps d = [[]] /\ grad cartA d = None).
Proof.
  split.
  - eexists. eexists. split; [vm_compute; reflexivity|]. split; [vm_compute; reflexivity|]. repeat split; vm_compute; reflexivity.
  - eexists. eexists. split; [vm_compute; reflexivity|]. split; [vm_compute; reflexivity|]. repeat split; vm_compute; reflexivity.
Qed.
Print Assumptions C27_grad. Print Assumptions C27_grad_vector. Print Assumptions C27_div. Print Assumptions C27_div_tensor.
Print Assumptions C27_curl_3d. Print Assumptions C27_curl_2d_vector. Print Assumptions C27_curl_2d_scalar.
Print Assumptions C27_div_grad_is_laplacian. Print Assumptions C27_curl_grad_is_zero. Print Assumptions C27_div_curl_is_zero.
Print Assumptions C27_identities_return. Print Assumptions C27_zero_results_raise_refuted.

Lemma cartA_cartesian : cartesian ALaws cartA.
Proof. split; [reflexivity|]. intros i y _. split; [exact I|reflexivity]. Qed.
(** the Laplacian of x^2 u_xy + sin(y) u *)
Example C27_example : cartesian ALaws cartA /\ exists g d, grad cartA exA = Some g /\ div cartA g = Some d /\ map (@length _) (e_comps d) = [8%nat].
Proof. split; [exact cartA_cartesian|]. eexists. eexists. split; [vm_compute; reflexivity|]. split; [vm_compute; reflexivity|]. reflexivity. Qed.
(** a smooth function with its derivatives: U k l = exp(x_0 + x_1 + x_2) *)
Example C27_smooth_example : forall x, smooth 3 (fun _ _ y => exp (y 0%nat + y 1%nat + y 2%nat)) x.
Proof.
  intros x k l l' i _ Hi _. unfold partial.
  assert (E : derivable_pt_lim (fun h => exp (x 0%nat + x 1%nat + x 2%nat + h)) 0 (exp (x 0%nat + x 1%nat + x 2%nat + 0) * (0 + 1))).
  { apply (derivable_pt_lim_comp (fun h => x 0%nat + x 1%nat + x 2%nat + h) exp).
    - apply (derivable_pt_lim_plus (fun _ => x 0%nat + x 1%nat + x 2%nat) (fun h => h)); [apply derivable_pt_lim_const|apply derivable_pt_lim_id].
    - apply derivable_pt_lim_exp. }
  replace (exp (x 0%nat + x 1%nat + x 2%nat)) with (exp (x 0%nat + x 1%nat + x 2%nat + 0) * (0 + 1)) by (rewrite Rplus_0_r; ring).
  intros eps Heps. destruct (E eps Heps) as (del & Hdel). exists del. intros h Hh Hl. specialize (Hdel h Hh Hl).
  replace (shift x i (0 + h) 0%nat + shift x i (0 + h) 1%nat + shift x i (0 + h) 2%nat) with (x 0%nat + x 1%nat + x 2%nat + (0 + h)).
  2: { unfold shift. destruct i as [|[|[|i]]]; [| | |lia]; cbn; ring. }
  replace (shift x i 0 0%nat + shift x i 0 1%nat + shift x i 0 2%nat) with (x 0%nat + x 1%nat + x 2%nat + 0) by (rewrite shift_0; ring).
  exact Hdel.
Qed.
