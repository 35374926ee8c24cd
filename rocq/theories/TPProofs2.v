(** TPProofs2.v -- merging equal tensor product matrices; block matrices. *)
From Coq Require Import Arith ZArith List Lia Bool Field.
From Verif Require Import Base Fld SparseModel SparseSpec SparseProofs TPModel TPSpec TPProofs.
Import ListNotations.
Local Open Scope nat_scope.

Section P.
  Variable K : Fld.
  Add Field KF2 : (flaws K).
  Notation arr := (list nat -> K).
  Local Open Scope fld_scope.
  Notation lsum := (lsum K).

  Lemma lsum_app {A} (f : A -> K) l m : lsum f (l ++ m) = lsum f l + lsum f m.
  Proof. induction l as [|x l IH]; simpl; [ring | rewrite IH; ring]. Qed.
  Lemma lsum_ext {A} (f g : A -> K) l : (forall x, In x l -> f x = g x) -> lsum f l = lsum g l.
  Proof.
    induction l as [|x l IH]; intros H; simpl; auto.
    rewrite H by (simpl; auto). f_equal. apply IH. intros; apply H; simpl; auto.
  Qed.
  Lemma lsum_map {A B} (g : A -> B) (f : B -> K) l : lsum f (map g l) = lsum (fun x => f (g x)) l.
  Proof. induction l as [|x l IH]; simpl; auto. rewrite IH. reflexivity. Qed.
  Lemma lsum_zero {A} (l : list A) : lsum (fun _ : A => 0) l = 0.
  Proof. induction l as [|x l IH]; simpl; auto. rewrite IH. ring. Qed.
  Lemma lsum_filter {A} (f : A -> K) (p : A -> bool) (l : list A) : lsum (fun x => if p x then f x else (0 : K)) l = lsum f (filter p l).
  Proof. induction l as [|x l IH]; simpl; auto. destruct (p x); simpl; rewrite IH; ring. Qed.

  Section Merge.
    Variable smeq : smat K -> smat K -> bool.
    Variable P : smat K -> Prop.
    Hypothesis HP : good_eq K P smeq.
    Notation heap := (heap K).

    (** nothing but the scale of the objects changes *)
    Definition same_but_scale (S T : tpmat K) : Prop :=
      tp_mats S = tp_mats T /\ tp_diag S = tp_diag T /\ tp_simplified S = tp_simplified T /\ tp_index S = tp_index T.
    Lemma sbs_refl T : same_but_scale T T.  Proof. repeat split. Qed.
    Lemma sbs_trans A B C : same_but_scale A B -> same_but_scale B C -> same_but_scale A C.
    Proof. unfold same_but_scale. intros (?&?&?&?) (?&?&?&?). repeat split; congruence. Qed.
    Lemma sbs_eq A A' B B' : same_but_scale A A' -> same_but_scale B B' -> tp_eq K smeq A B = tp_eq K smeq A' B'.
    Proof. unfold tp_eq. intros (->&_&_&->) (->&_&_&->). reflexivity. Qed.
    Lemma sbs_kron A B v idx : same_but_scale A B -> kron K (tp_mats A) idx v = kron K (tp_mats B) idx v.
    Proof. intros (->&_). reflexivity. Qed.

    (** objects that may be compared: factors in P, one per axis *)
    Definition factors_in (n : nat) (T : tpmat K) : Prop := length (tp_mats T) = n /\ Forall P (tp_mats T).

    Lemma mats_eq_kron : forall ms ns idx v, length ms = length ns -> Forall P ms -> Forall P ns ->
      Forall2 (fun A i => i < sm_rows K A)%nat ms idx ->
      forallb (fun p => smeq (fst p) (snd p)) (combine ms ns) = true -> kron K ms idx v = kron K ns idx v.
    Proof.
      induction ms as [|A ms IH]; intros [|B ns] [|i idx] v Hl HA HB Hi He; simpl in *; try discriminate; auto.
      inversion HA; subst. inversion HB; subst. inversion Hi; subst.
      apply andb_true_iff in He. destruct He as [E1 E2].
      destruct (HP A B A) as [(Er & Ec & Es) _]; auto. rewrite <- Ec.
      apply fsum_ext. intros j Hj. rewrite (Es i j) by lia. f_equal. apply IH; auto.
    Qed.
    Lemma mats_eq_euclid : forall ms ns ks, length ms = length ns -> length ms = length ks ->
      Forall P ms -> Forall P ns -> Forall P ks ->
      forallb (fun p => smeq (fst p) (snd p)) (combine ms ns) = true ->
      forallb (fun p => smeq (fst p) (snd p)) (combine ms ks) = true ->
      forallb (fun p => smeq (fst p) (snd p)) (combine ks ns) = true.
    Proof.
      induction ms as [|A ms IH]; intros [|B ns] [|C ks] L1 L2 HA HB HC E1 E2; simpl in *; try discriminate; auto.
      inversion HA; subst. inversion HB; subst. inversion HC; subst.
      apply andb_true_iff in E1, E2. destruct E1, E2.
      destruct (HP A B C) as [_ He]; auto. rewrite He by auto. simpl. apply IH; auto.
    Qed.
    Lemma tp_eq_euclid n A B C : factors_in n A -> factors_in n B -> factors_in n C ->
      tp_eq K smeq A B = true -> tp_eq K smeq A C = true -> tp_eq K smeq C B = true.
    Proof.
      intros [L1 F1] [L2 F2] [L3 F3]. unfold tp_eq. rewrite !andb_true_iff, !Nat.eqb_eq.
      intros [[] E1] [[] E2]. repeat split; try congruence.
      apply (mats_eq_euclid (tp_mats A)); auto; congruence.
    Qed.

    Section One.
      Variables (n : nat) (v : arr) (idx : list nat) (sel : nat * nat -> bool).
      (** the action of the objects of the selected blocks *)
      Definition wop (T : tpmat K) : K := if sel (tp_index T) then tp_op K T v idx else 0.
      (** the object can be compared and its rows contain the index *)
      Definition fit (T : tpmat K) : Prop :=
        factors_in n T /\
        (sel (tp_index T) = true -> Forall2 (fun A i => i < sm_rows K A)%nat (tp_mats T) idx).
      Lemma fit_sbs A B : same_but_scale A B -> fit B -> fit A.
      Proof. intros (E&_&_&E'). unfold fit, factors_in. rewrite E, E'. auto. Qed.

      Lemma iadd_op  A B : fit A -> fit B -> tp_eq K smeq A B = true -> wop (tp_iadd K B A) = wop B + wop A.
      Proof.
        intros [[L1 F1] R1] [[L2 F2] R2] E. unfold wop, tp_op, tp_iadd. simpl.
        unfold tp_eq in E. rewrite !andb_true_iff, !Nat.eqb_eq in E. destruct E as [[E1 E2] E].
        assert (Ei : tp_index A = tp_index B) by (destruct (tp_index A), (tp_index B); simpl in *; congruence).
        rewrite Ei in *. destruct (sel (tp_index B)); [|ring].
        rewrite (mats_eq_kron (tp_mats A) (tp_mats B) idx v); auto; [ring | congruence].
      Qed.

      (** effect of the inner loop on the objects in B and on the rest of the heap *)
      Lemma merge_loop_ok : forall B (h : heap) a, NoDup B -> ~ In a B ->
        (forall x, In x (a :: B) -> fit (h x)) ->
        (forall x y l1 l2 l3, B = l1 ++ x :: l2 ++ y :: l3 -> tp_eq K smeq (h y) (h x) = false) ->
        let '(h', found) := merge_loop K smeq h a B in
        (forall x, same_but_scale (h' x) (h x)) /\
        (forall x, ~ In x B -> h' x = h x) /\
        lsum (fun x => wop (h' x)) B =
          lsum (fun x => wop (h x)) B + (if found then wop (h a) else 0) /\
        (found = false -> forall x, In x B -> tp_eq K smeq (h a) (h x) = false).
      Proof.
        induction B as [|b B IH]; intros h a ND Ha Hf Hd; simpl.
        - repeat split; auto; try (intros; apply sbs_refl). ring. intros _ x [].
        - inversion ND as [|? ? Hb ND']; subst.
          destruct (tp_eq K smeq (h a) (h b)) eqn:E.
          + set (h1 := upd h b (tp_iadd K (h b) (h a))).
            assert (S1 : forall x, same_but_scale (h1 x) (h x)).
            { intros x. unfold h1, upd. destruct (Nat.eqb_spec x b); [subst|apply sbs_refl]. repeat split. }
            assert (Ho : forall x, x <> b -> h1 x = h x) by (intros; apply upd_other; auto).
            assert (Hnone : forall x, In x B -> tp_eq K smeq (h1 a) (h1 x) = false).
            { intros x Hx. rewrite (sbs_eq _ _ _ _ (S1 a) (S1 x)).
              destruct (tp_eq K smeq (h a) (h x)) eqn:E'; auto.
              apply in_split in Hx. destruct Hx as (l2 & l3 & ->).
              rewrite <- (Hd b x [] l2 l3 eq_refl). symmetry.
              apply (tp_eq_euclid n (h a) (h b) (h x)); auto; apply Hf; simpl; auto.
              right; right. apply in_or_app. simpl. auto. }
            specialize (IH h1 a ND'). assert (Ha' : ~ In a B) by (intro; apply Ha; simpl; auto).
            specialize (IH Ha').
            destruct (merge_loop K smeq h1 a B) as [h2 f2] eqn:EM. cbn [fst].
            destruct IH as (I1 & I2 & I3 & I4).
            { intros x Hx. apply (fit_sbs _ (h x)); [apply S1|]. apply Hf. simpl in *. tauto. }
            { intros x y l1 l2 l3 ->. rewrite (sbs_eq _ _ _ _ (S1 y) (S1 x)).
              apply (Hd x y (b :: l1) l2 l3). reflexivity. }
            assert (f2 = false).
            { destruct f2; auto. exfalso. clearbody h1. clear -EM Hnone. revert h1 EM Hnone. induction B as [|c B IH]; intros h1 EM Hn; simpl in EM.
              - discriminate.
              - rewrite (Hn c) in EM by (simpl; auto). apply (IH h1 EM). intros; apply Hn; simpl; auto. }
            subst f2.
            split; [intros x; eapply sbs_trans; [apply I1 | apply S1]|].
            split; [intros x Hx; rewrite I2 by (intro; apply Hx; simpl; auto); apply Ho; intros ->; apply Hx; simpl; auto|].
            split; [|discriminate].
            simpl. rewrite I3, (I2 b Hb). unfold h1 at 1. rewrite upd_same.
            rewrite (iadd_op (h a) (h b)); auto; try (apply Hf; simpl; auto).
            rewrite (lsum_ext (fun x => wop (h1 x)) (fun x => wop (h x)) B).
            2:{ intros x Hx. rewrite Ho; auto. intros ->. contradiction. }
            ring.
          + specialize (IH h a ND'). assert (Ha' : ~ In a B) by (intro; apply Ha; simpl; auto).
            specialize (IH Ha'). destruct (merge_loop K smeq h a B) as [h2 f2].
            destruct IH as (I1 & I2 & I3 & I4).
            { intros x Hx. apply Hf. simpl in *. tauto. }
            { intros x y l1 l2 l3 ->. apply (Hd x y (b :: l1) l2 l3). reflexivity. }
            split; auto. split; [intros x Hx; apply I2; intro; apply Hx; simpl; auto|].
            split.
            * simpl. rewrite I3, (I2 b Hb). ring.
            * intros Ef x [<-|Hx]; auto.
      Qed.

      Definition separated (h : heap) (B : list nat) : Prop :=
        forall x y l1 l2 l3, B = l1 ++ x :: l2 ++ y :: l3 -> tp_eq K smeq (h y) (h x) = false.
      Lemma separated_snoc h B a : separated h B -> (forall x, In x B -> tp_eq K smeq (h a) (h x) = false) ->
        separated h (B ++ [a]).
      Proof.
        intros HB Ha x y l1 l2 l3 E.
        destruct l3 as [|z l3 _] using rev_ind.
        - assert (E' : B ++ [a] = (l1 ++ x :: l2) ++ [y]) by (rewrite E, <- app_assoc; reflexivity).
          apply app_inj_tail in E'. destruct E' as [-> <-]. apply Ha. apply in_or_app. simpl. auto.
        - assert (E' : B ++ [a] = (l1 ++ x :: l2 ++ y :: l3) ++ [z]).
          { rewrite E. rewrite <- !app_assoc. simpl. rewrite <- !app_assoc. reflexivity. }
          apply app_inj_tail in E'. destruct E' as [-> _]. apply (HB x y l1 l2 l3). reflexivity.
      Qed.
      Lemma separated_sbs h h' B : (forall x, same_but_scale (h' x) (h x)) -> separated h B -> separated h' B.
      Proof. intros S H x y l1 l2 l3 E. rewrite (sbs_eq _ _ _ _ (S y) (S x)). eapply H; eauto. Qed.

      Lemma merge_all_ok : forall A B (h : heap), NoDup (A ++ B) ->
        (forall x, In x (A ++ B) -> fit (h x)) -> separated h B ->
        let '(h', B') := merge_all K smeq h A B in
        (forall x, same_but_scale (h' x) (h x)) /\
        (forall x, ~ In x (A ++ B) -> h' x = h x) /\
        (forall x, In x B' -> In x (A ++ B)) /\ NoDup B' /\ separated h' B' /\
        lsum (fun x => wop (h' x)) B' = lsum (fun x => wop (h x)) (A ++ B).
      Proof.
        induction A as [|a A IH]; intros B h ND Hf Hs; simpl.
        - repeat split; auto.
        - inversion ND as [|? ? Ha ND']; subst.
          assert (NB : NoDup B) by (clear -ND'; induction A; simpl in *; [auto | inversion ND'; auto]).
          pose proof (merge_loop_ok B h a NB) as M.
          destruct (merge_loop K smeq h a B) as [h1 found].
          destruct M as (M1 & M2 & M3 & M4).
          { intro. apply Ha. apply in_or_app. auto. }
          { intros x [<-|Hx]; apply Hf; simpl; auto. right. apply in_or_app. auto. }
          { exact Hs. }
          assert (FA : forall x, In x (A ++ B) -> fit (h1 x)).
          { intros x Hx. apply (fit_sbs _ (h x)); [apply M1|]. apply Hf. simpl. auto. }
          assert (DA : forall x, In x A -> ~ In x B).
          { clear -ND'. induction A as [|c A IH]; intros x [] Hb; subst.
            - simpl in ND'. inversion ND' as [|? ? N1 N2]; subst. apply N1. apply in_or_app. auto.
            - simpl in ND'. inversion ND' as [|? ? N1 N2]; subst. apply (IH N2 x); auto. }
          assert (SA : lsum (fun x => wop (h1 x)) A = lsum (fun x => wop (h x)) A).
          { apply lsum_ext. intros x Hx. rewrite M2; auto. }
          assert (Eha : h1 a = h a) by (apply M2; intro; apply Ha; apply in_or_app; auto).
          destruct found.
          + specialize (IH B h1 ND' FA (separated_sbs _ _ _ M1 Hs)).
            destruct (merge_all K smeq h1 A B) as [h2 B2]. destruct IH as (I1 & I2 & I3 & I4 & I5 & I6).
            split; [intros x; eapply sbs_trans; [apply I1 | apply M1]|].
            split; [intros x Hx; rewrite I2 by tauto; apply M2; intro; apply Hx; right; apply in_or_app; auto|].
            split; [intros x Hx; right; auto|]. split; auto. split; auto.
            rewrite I6, !lsum_app, SA, M3. ring.
          + assert (P1 : NoDup (A ++ B ++ [a])).
            { rewrite app_assoc. apply NoDup_rev in ND'. rewrite <- (rev_involutive ((A ++ B) ++ [a])).
              apply NoDup_rev. rewrite rev_app_distr. simpl. constructor; auto.
              intro X. apply in_rev in X. contradiction. }
            assert (In1 : forall x, In x (A ++ B ++ [a]) <-> a = x \/ In x (A ++ B)).
            { intros x. rewrite !in_app_iff. simpl. tauto. }
            specialize (IH (B ++ [a]) h1 P1).
            destruct (merge_all K smeq h1 A (B ++ [a])) as [h2 B2]. destruct IH as (I1 & I2 & I3 & I4 & I5 & I6).
            { intros x Hx. apply In1 in Hx. destruct Hx as [<-|Hx]; auto. rewrite Eha. apply Hf. simpl. auto. }
            { apply separated_snoc; [exact (separated_sbs _ _ _ M1 Hs)|]. intros x Hx.
              rewrite (sbs_eq _ _ _ _ (M1 a) (M1 x)). apply M4; auto. }
            split; [intros x; eapply sbs_trans; [apply I1 | apply M1]|].
            split; [intros x Hx; rewrite I2 by (rewrite In1; tauto); apply M2; intro; apply Hx; right; apply in_or_app; auto|].
            split; [intros x Hx; apply In1; auto|]. split; auto. split; auto.
            rewrite I6, !lsum_app. simpl. rewrite SA, M3, Eha. ring.
      Qed.
    End One.
  End Merge.
End P.
