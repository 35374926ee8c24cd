(** MDSolveProofs.v -- extensionality, footprint and realness of the banded routines. *)
From Coq Require Import Arith ZArith List Lia Bool Field.
From Verif Require Import Base Fld SolversModel SolversSpec SolversProofs5 SparseModel SparseSpec
  SparseProofs SparseProofs2 SparseProofs3 TPSpec MDSolveModel MDSolveSpec.
Import ListNotations.
Local Open Scope nat_scope.

Section P.
  Variable K : Fld.
  Notation vec := (nat -> K).
  Notation dia := (nat -> nat -> K).

  Lemma app_congr {A B} (F G : A -> B) X Y : X = Y -> (forall u, F u = G u) -> F X = G Y.
  Proof. intros -> H. apply H. Qed.
  Lemma for_up_congr {S} cnt st (f g : nat -> S -> S) s t :
    (forall i s, f i s = g i s) -> s = t -> for_up cnt st f s = for_up cnt st g t.
  Proof. intros H ->. apply for_up_ext. intros; apply H. Qed.
  Lemma for_down_congr {S} cnt (f g : nat -> S -> S) s t :
    (forall i s, f i s = g i s) -> s = t -> for_down cnt f s = for_down cnt g t.
  Proof. intros H ->. apply for_down_ext. intros; apply H. Qed.

  Ltac peel := match goal with
    |- (let d := ?X in @?F d) = (let d' := ?Y in @?G d') => change (F X = G Y); cbv beta end.
  Ltac stage HD := match goal with
    |- (let d := ?X in @?F d) = (let d' := ?Y in @?G d') =>
      apply (app_congr F G X Y);
      [ first [ rewrite !HD; reflexivity
              | apply for_up_congr; [intros; rewrite !HD; reflexivity | reflexivity] ]
      | intros ?u; cbv beta ] end.
  Ltac finish HD := first [ rewrite !HD; reflexivity
    | apply for_down_congr; [intros; rewrite ?HD; reflexivity | reflexivity]
    | apply for_up_congr; [intros; rewrite ?HD; reflexivity | reflexivity] ].

  Lemma solve_of_ext_all k n (D D' : dia) (b : vec) :
    (forall r j, D r j = D' r j) -> solve_of K k n D b = solve_of K k n D' b.
  Proof.
    intros HD. destruct k; cbn [solve_of].
    - cbv beta delta [diagma_solve]. finish HD.
    - cbv beta delta [tdma_solve]. repeat stage HD. finish HD.
    - cbv beta delta [tdmao_solve]. repeat stage HD. finish HD.
    - cbv beta delta [fdma_solve]. stage HD. apply back3_ext; intros; apply HD.
    - cbv beta delta [twodma_solve]. repeat stage HD. finish HD.
    - cbv beta delta [threedma_solve]. apply back3_ext; intros; apply HD.
    - cbv beta delta [pdma_solve]. do 3 peel.
      match goal with |- (let d := ?X in @?F d) = (let d' := ?Y in @?G d') =>
        apply (app_congr F G X Y); [|intros u; cbv beta] end.
      { cbv beta delta [penta_forward]. repeat stage HD. finish HD. }
      repeat stage HD. finish HD.
    - cbv beta delta [hepta_solve]. do 5 peel.
      match goal with |- (let d := ?X in @?F d) = (let d' := ?Y in @?G d') =>
        apply (app_congr F G X Y); [|intros u; cbv beta] end.
      { cbv beta delta [penta_forward]. repeat stage HD. finish HD. }
      repeat stage HD. finish HD.
  Qed.

  (** nothing beyond the n entries of the system is written *)
  Definition keeps (n : nat) (b u : vec) : Prop := forall r, n <= r -> u r = b r.
  Lemma keeps_upd n b u i v : i < n -> keeps n b u -> keeps n b (upd u i v).
  Proof. intros Hi H r Hr. rewrite upd_other by lia. apply H; auto. Qed.
  Lemma keeps_up n b c st f u : (forall i u, st <= i < st + c -> keeps n b u -> keeps n b (f i u)) ->
    keeps n b u -> keeps n b (for_up c st f u).
  Proof. intros H Hu. apply (for_up_inv (fun _ u => keeps n b u)); auto. Qed.
  Lemma keeps_down n b c f u : (forall i u, i < c -> keeps n b u -> keeps n b (f i u)) ->
    keeps n b u -> keeps n b (for_down c f u).
  Proof. intros H Hu. apply (for_down_inv (fun _ u => keeps n b u)); auto. Qed.
  Lemma keeps_let n b (F : vec -> vec) X : keeps n b X -> (forall u, keeps n b u -> keeps n b (F u)) ->
    keeps n b (F X).
  Proof. auto. Qed.

  Ltac kstep := match goal with
    | |- keeps ?n ?b (let u := ?X in @?F u) => apply (keeps_let n b F X); [|intros ?u ?Hu; cbv beta]
    | |- keeps _ _ (upd _ _ _) => apply keeps_upd; [lia|]
    | |- keeps _ _ (for_up _ _ _ _) => apply keeps_up; [intros ? ? ? ?|]
    | |- keeps _ _ (for_down _ _ _) => apply keeps_down; [intros ? ? ? ?|]
    | H : keeps ?n ?b ?u |- keeps ?n ?b ?u => exact H
    end.
  Ltac kpeel := match goal with |- keeps ?n ?b (let d := ?X in @?F d) => change (keeps n b (F X)); cbv beta end.

  Lemma back3_keeps n b d u1 u2 u : 4 <= n -> keeps n b u -> keeps n b (back3 K n d u1 u2 u).
  Proof. intros Hn Hu. unfold back3. repeat kstep. Qed.
  Lemma penta_keeps n b da db u : 4 <= n -> keeps n b u -> keeps n b (penta_forward K n da db u).
  Proof. intros Hn Hu. cbv beta delta [penta_forward]. repeat kstep. Qed.

  Lemma solve_keeps k n (D : dia) (b : vec) : k <> KThreeDMA -> kind_min k <= n ->
    forall r, n <= r -> solve_of K k n D b r = b r.
  Proof.
    intros H3 Hn. assert (H0 : keeps n b b) by (intros r _; reflexivity).
    change (keeps n b (solve_of K k n D b)).
    destruct k; cbn [solve_of kind_min] in *; try congruence.
    - cbv beta delta [diagma_solve]. repeat kstep.
    - cbv beta delta [tdma_solve]. repeat kstep.
    - cbv beta delta [tdmao_solve]. repeat kstep.
    - cbv beta delta [fdma_solve]. kstep; [repeat kstep|]. apply back3_keeps; auto.
    - cbv beta delta [twodma_solve]. repeat kstep.
    - cbv beta delta [pdma_solve]. do 3 kpeel. kstep; [apply penta_keeps; auto|]. repeat kstep.
    - cbv beta delta [hepta_solve]. do 5 kpeel. kstep; [apply penta_keeps; auto; lia|]. repeat kstep.
  Qed.

  (** factorisation stays inside a subfield *)
  Section Real.
    Variable P : K -> Prop.
    Hypothesis Psub : forall x y, P x -> P y -> P (fsub x y).
    Hypothesis Pmul : forall x y, P x -> P y -> P (fmul x y).
    Hypothesis Pdiv : forall x y, P x -> P y -> P (fdiv x y).
    Definition allP (D : dia) : Prop := forall r j, P (D r j).
    Lemma allP_upd2 D k c v : allP D -> P v -> allP (upd2 D k c v).
    Proof. intros H Hv r j. unfold upd2. destruct (_ && _)%bool; auto. Qed.
    Lemma allP_up c st f D : (forall i D, allP D -> allP (f i D)) -> allP D -> allP (for_up c st f D).
    Proof. intros H Hu. apply (for_up_inv (fun _ u => allP u)); auto. Qed.
    Lemma allP_let (F : dia -> dia) X : allP X -> (forall u, allP u -> allP (F u)) -> allP (F X).
    Proof. auto. Qed.
    Lemma P_let (F : K -> dia) X : P X -> (forall u, P u -> allP (F u)) -> allP (F X).
    Proof. auto. Qed.
    Ltac astep := match goal with
      | |- allP (let u := ?X in @?F u) =>
          first [ apply (allP_let F X); [|intros ?u ?Hu; cbv beta]
                | apply (P_let F X); [|intros ?u ?Hu; cbv beta] ]
      | |- allP (if _ then _ else _) => destruct (Nat.ltb _ _)
      | |- allP (upd2 _ _ _ _) => apply allP_upd2
      | |- allP (subm _ _ _ _ _ _ _) => unfold subm
      | |- allP (for_up _ _ _ _) => apply allP_up; [intros ? ? ?|]
      | H : allP ?u |- allP ?u => exact H
      | |- P (fsub _ _) => apply Psub
      | |- P (fmul _ _) => apply Pmul
      | |- P (fdiv _ _) => apply Pdiv
      | H : P ?x |- P ?x => exact H
      | H : allP ?u |- P (?u _ _) => apply H
      end.
    Lemma tail_P i D : allP D -> allP (pdma_lu_tail K i D).
    Proof. intros H. cbv beta delta [pdma_lu_tail]. repeat astep. Qed.
    Lemma lu_P k n D : allP D -> allP (lu_of K k n D).
    Proof.
      intros H. destruct k; cbn [lu_of]; auto.
      - cbv beta delta [tdma_lu]. repeat astep.
      - cbv beta delta [tdmao_lu]. repeat astep.
      - cbv beta delta [fdma_lu]. repeat astep.
      - cbv beta delta [pdma_lu]. astep; [|astep; [|apply tail_P; auto]]; [|apply tail_P; auto].
        astep; auto. cbv beta delta [pdma_lu_body]. repeat astep.
      - cbv beta delta [hepta_lu]. astep; [|astep; [|apply tail_P; auto]]; [|apply tail_P; auto].
        astep; auto. cbv beta delta [hepta_lu_body]. repeat astep.
    Qed.
  End Real.
End P.
