(** IntegratorsProofs6.v -- polynomial vector fields are smooth, matrices are regular. *)
From Coq Require Import Reals Lra Lia List Arith Bool FunctionalExtensionality.
From Verif Require Import Base IntegratorsModel IntegratorsProofs IntegratorsProofs2 IntegratorsProofs3 StencilProofs StencilProofs8.
Import ListNotations.
Local Open Scope R_scope.

Section Poly.
  Variable I : Type.
  Notation vec := (vec I).
  Notation vadd := (vadd I).
  Notation vscal := (vscal I).
  Notation vzero := (vzero I).
  Notation expands := (expands I).

  (** ** products *)
  Definition mono (a : vec) (m k : nat) : vec := if (k =? m)%nat then a else vzero.
  Lemma expands_mono n a m : expands n (fun h => vscal (h ^ m) a) (mono a m).
  Proof.
    revert n. induction m as [|m IH]; intros n.
    - eapply expands_ext; [apply (expands_const I n a)| |].
      + intros i. apply near0_true. intros h. unfold IntegratorsModel.vscal. cbn [pow]. ring.
      + intros k i _. destruct k; reflexivity.
    - destruct n as [|n].
      + apply (expands_lower I 0). eapply expands_ext; [apply (expands_hmul I 0 _ _ (IH 0%nat))| |].
        * intros i. apply near0_true. intros h. unfold IntegratorsModel.vscal. cbn [pow]. ring.
        * intros k i _. destruct k; reflexivity.
      + eapply expands_ext; [apply (expands_hmul I n _ _ (IH n))| |].
        * intros i. apply near0_true. intros h. unfold IntegratorsModel.vscal. cbn [pow]. ring.
        * intros k i _. destruct k; reflexivity.
  Qed.
  Definition small (n : nat) (g : R -> vec) : Prop := forall i, exists C, near0 (fun h => Rabs (g h i) <= C * Rabs h ^ S n).
  Lemma small_expands n g : small n g -> expands n g (fun _ => vzero).
  Proof.
    intros H i. destruct (H i) as [C HC]. exists C. revert HC. apply near0_impl. intros h Hh.
    assert (taylor I n (fun _ => vzero) h i = 0) as -> by (unfold taylor; apply gsum_zero; intros; unfold IntegratorsModel.vzero; ring). rewrite Rminus_0_r. exact Hh.
  Qed.
  Lemma expands_small n g c : expands n g c -> small n (fun h i => g h i - taylor I n c h i).
  Proof. intros H i. exact (H i). Qed.
  Lemma small_mul n g f : small n g -> bounded I f -> small n (fun h => vmul I (f h) (g h)).
  Proof.
    intros H B i. destruct (H i) as [C HC], (B i) as [D HD]. exists (Rabs D * Rabs C). generalize (near0_and _ _ HC HD). apply near0_impl. intros h [A1 A2].
    unfold vmul. rewrite Rabs_mult. pose proof (pow_le (Rabs h) (S n) (Rabs_pos h)).
    rewrite Rmult_assoc. apply Rmult_le_compat; try apply Rabs_pos; [apply (Rle_trans _ D); [exact A2|apply Rle_abs]|].
    eapply Rle_trans; [exact A1|]. apply Rmult_le_compat_r; [assumption|apply Rle_abs].
  Qed.
  Definition cauchy (n : nat) (c d : nat -> vec) (k : nat) : vec :=
    vsum I (S n) (fun j => vsum I (S n) (fun l => mono (vmul I (c j) (d l)) (j + l) k)).
  Lemma taylor_prod n c d h i : taylor I n c h i * taylor I n d h i = vsum I (S n) (fun j => vsum I (S n) (fun l => vscal (h ^ (j + l)) (vmul I (c j) (d l)))) i.
  Proof.
    unfold taylor, vsum. rewrite <- (gsum_scal (S n)).
    assert (forall m p (f g : nat -> R), gsum 0 Rplus m (fun l => gsum 0 Rplus p f * g l) = gsum 0 Rplus p (fun j => gsum 0 Rplus m (fun l => f j * g l))) as H.
    { intros m p f g. rewrite gsum_scal. rewrite Rmult_comm, <- gsum_scal. apply gsum_ext_R. intros j _. rewrite gsum_scal. ring. }
    rewrite H. apply gsum_ext_R. intros j _. apply gsum_ext_R. intros l _. unfold IntegratorsModel.vscal, vmul. rewrite pow_add. ring.
  Qed.
  Lemma expands_mul n g f c d : expands n g c -> expands n f d -> expands n (fun h => vmul I (g h) (f h)) (cauchy n c d).
  Proof.
    intros Hg Hf. set (T := fun h => (fun i => taylor I n c h i) : vec). set (T' := fun h => (fun i => taylor I n d h i) : vec).
    assert (expands n (fun h => vmul I (T h) (T' h)) (cauchy n c d)) as HT.
    { eapply expands_ext; [apply (vsum_exp I n (S n) (fun j h => vsum I (S n) (fun l => vscal (h ^ (j + l)) (vmul I (c j) (d l)))) (fun j k => vsum I (S n) (fun l => mono (vmul I (c j) (d l)) (j + l) k)))| |].
      - intros j _. apply (vsum_exp I n (S n) (fun l h => vscal (h ^ (j + l)) (vmul I (c j) (d l))) (fun l k => mono (vmul I (c j) (d l)) (j + l) k)). intros l _. apply expands_mono.
      - intros i. apply near0_true. intros h. change (vmul I (T h) (T' h) i) with (taylor I n c h i * taylor I n d h i). rewrite taylor_prod. reflexivity.
      - reflexivity. }
    assert (bounded I f) as Bf by (eapply expands_0_bounded, (expands_le I 0 n); [lia|exact Hf]).
    assert (bounded I T) as BT.
    { eapply expands_0_bounded, (expands_le I 0 n); [lia|]. intros i. exists 0. apply near0_true. intros h. unfold T. rewrite Rminus_diag_eq, Rabs_R0 by reflexivity. lra. }
    pose proof (small_expands n _ (small_mul n _ f (expands_small n g c Hg) Bf)) as E1.
    pose proof (small_expands n _ (small_mul n _ T (expands_small n f d Hf) BT)) as E2.
    eapply expands_ext; [apply (expands_add I _ _ _ _ _ HT (expands_add I _ _ _ _ _ E1 E2))| |].
    - intros i. apply near0_true. intros h. unfold IntegratorsModel.vadd, vmul, T, T'. ring.
    - intros k i _. rewrite !(v0r I). reflexivity.
  Qed.

  (** ** polynomials in the components *)
  Inductive pexp : Type := PC (r : R) | PV (i : I) | PA (p q : pexp) | PM (p q : pexp).
  Fixpoint peval (p : pexp) (u : vec) : R :=
    match p with PC r => r | PV i => u i | PA p q => peval p u + peval q u | PM p q => peval p u * peval q u end.
  Fixpoint pd1 (p : pexp) (u v : vec) : R :=
    match p with PC _ => 0 | PV i => v i | PA p q => pd1 p u v + pd1 q u v | PM p q => pd1 p u v * peval q u + peval p u * pd1 q u v end.
  Fixpoint pd2 (p : pexp) (u v w : vec) : R :=
    match p with PC _ | PV _ => 0 | PA p q => pd2 p u v w + pd2 q u v w
    | PM p q => pd2 p u v w * peval q u + pd1 p u v * pd1 q u w + pd1 p u w * pd1 q u v + peval p u * pd2 q u v w end.
  Fixpoint pd3 (p : pexp) (u v w x : vec) : R :=
    match p with PC _ | PV _ => 0 | PA p q => pd3 p u v w x + pd3 q u v w x
    | PM p q => pd3 p u v w x * peval q u + pd2 p u v w * pd1 q u x + pd2 p u v x * pd1 q u w + pd2 p u w x * pd1 q u v
                + pd1 p u v * pd2 q u w x + pd1 p u w * pd2 q u v x + pd1 p u x * pd2 q u v w + peval p u * pd3 q u v w x end.
  Lemma pd1_lin p u : (forall v w, pd1 p u (vadd v w) = pd1 p u v + pd1 p u w) /\ (forall a v, pd1 p u (vscal a v) = a * pd1 p u v).
  Proof. induction p as [r|i|p [IH1 IH2] q [IH3 IH4]|p [IH1 IH2] q [IH3 IH4]]; split; intros; cbn; rewrite ?IH1, ?IH2, ?IH3, ?IH4; unfold IntegratorsModel.vadd, IntegratorsModel.vscal; ring. Qed.
  Lemma pd2_sym p u v w : pd2 p u v w = pd2 p u w v.
  Proof. induction p as [r|i|p IH1 q IH3|p IH1 q IH3]; cbn; rewrite ?IH1, ?IH3; ring. Qed.
  Lemma pd2_lin p u w : (forall v v', pd2 p u (vadd v v') w = pd2 p u v w + pd2 p u v' w) /\ (forall a v, pd2 p u (vscal a v) w = a * pd2 p u v w).
  Proof.
    induction p as [r|i|p [IH1 IH2] q [IH3 IH4]|p [IH1 IH2] q [IH3 IH4]]; split; intros; cbn; rewrite ?IH1, ?IH2, ?IH3, ?IH4;
    try destruct (pd1_lin p u) as [P1 P2]; try destruct (pd1_lin q u) as [Q1 Q2]; rewrite ?P1, ?P2, ?Q1, ?Q2; ring.
  Qed.
  Lemma pd3_sym p u v w x : pd3 p u v w x = pd3 p u w v x /\ pd3 p u v w x = pd3 p u v x w.
  Proof.
    induction p as [r|i|p [IH1 IH2] q [IH3 IH4]|p [IH1 IH2] q [IH3 IH4]]; split; cbn; try reflexivity.
    - rewrite IH1, IH3. ring.
    - rewrite IH2, IH4. ring.
    - rewrite IH1, IH3, (pd2_sym p u w v), (pd2_sym q u w v). ring.
    - rewrite IH2, IH4, (pd2_sym p u x w), (pd2_sym q u x w). ring.
  Qed.
  Lemma pd3_lin p u w x : (forall v v', pd3 p u (vadd v v') w x = pd3 p u v w x + pd3 p u v' w x) /\ (forall a v, pd3 p u (vscal a v) w x = a * pd3 p u v w x).
  Proof.
    induction p as [r|i|p [IH1 IH2] q [IH3 IH4]|p [IH1 IH2] q [IH3 IH4]]; split; intros; cbn; rewrite ?IH1, ?IH2, ?IH3, ?IH4; try ring.
    all: destruct (pd1_lin p u) as [P1 P2]; destruct (pd1_lin q u) as [Q1 Q2]; destruct (pd2_lin p u w) as [P3 P4]; destruct (pd2_lin q u w) as [Q3 Q4]; destruct (pd2_lin p u x) as [P5 P6]; destruct (pd2_lin q u x) as [Q5 Q6];
      rewrite ?P1, ?P2, ?Q1, ?Q2, ?P3, ?P4, ?Q3, ?Q4, ?P5, ?P6, ?Q5, ?Q6; ring.
  Qed.
  Definition pcomp (p : pexp) (u : vec) (c : nat -> vec) (k : nat) : R :=
    match k with
    | 0 => peval p u | 1 => pd1 p u (c 1%nat) | 2 => pd1 p u (c 2%nat) + 1/2 * pd2 p u (c 1%nat) (c 1%nat)
    | 3 => pd1 p u (c 3%nat) + (pd2 p u (c 1%nat) (c 2%nat) + 1/6 * pd3 p u (c 1%nat) (c 1%nat) (c 1%nat)) | _ => 0
    end.
  Lemma poly_expands p n g c : (n <= 3)%nat -> expands n g c ->
    expands n (fun h _ => peval p (g h)) (fun k _ => pcomp p (c 0%nat) c k).
  Proof.
    intros Hn H. induction p as [r|j|p IH1 q IH2|p IH1 q IH2].
    - eapply expands_coeffs; [apply (expands_const I n (fun _ => r))|]. intros k i Hk. destruct k as [|[|[|[|k]]]]; try lia; cbn; unfold IntegratorsModel.vzero; ring.
    - intros i. destruct (H j) as [C HC]. exists C. revert HC. apply near0_impl. intros h Hh. cbn [peval].
      assert (taylor I n (fun k _ => pcomp (PV j) (c 0%nat) c k) h i = taylor I n c h j) as ->; [|exact Hh].
      unfold taylor. apply gsum_ext_R. intros k Hk. destruct k as [|[|[|[|k]]]]; try lia; cbn; ring.
    - eapply expands_coeffs; [apply (expands_add I _ _ _ _ _ IH1 IH2)|]. intros k i Hk. unfold IntegratorsModel.vadd. destruct k as [|[|[|[|k]]]]; try lia; cbn; ring.
    - eapply expands_coeffs; [apply (expands_mul n _ _ _ _ IH1 IH2)|]. intros k i Hk. unfold cauchy, vsum.
      destruct n as [|[|[|[|n]]]]; try lia; destruct k as [|[|[|[|k]]]]; try lia; cbn -[peval pd1 pd2 pd3 pcomp]; unfold mono; cbn -[peval pd1 pd2 pd3]; unfold IntegratorsModel.vzero, vmul; cbn [peval pd1 pd2 pd3];
      rewrite ?(pd2_sym p _ (c 2%nat) (c 1%nat)), ?(pd2_sym q _ (c 2%nat) (c 1%nat)); try field.
  Qed.
  (** a vector field with polynomial components *)
  Definition pfield (P : I -> pexp) (u : vec) : vec := fun i => peval (P i) u.
  Lemma poly_smooth P u0 : smooth I (pfield P) u0 (fun v i => pd1 (P i) u0 v) (fun v w i => pd2 (P i) u0 v w) (fun v w x i => pd3 (P i) u0 v w x).
  Proof.
    assert (forall (F : vec -> vec), (forall i v w, F (vadd v w) i = F v i + F w i) -> (forall i a v, F (vscal a v) i = a * F v i) -> linear I F) as LL by (intros F H1 H2; split; intros; apply functional_extensionality; intros j; [apply H1|apply H2]).
    split; [|split; [|split]].
    - apply LL; intros i; apply (pd1_lin (P i) u0).
    - split; [|split].
      + intros u. apply LL; intros i; intros; rewrite !(pd2_sym (P i) u0 u); apply (pd2_lin (P i) u0 u).
      + intros u. apply LL; intros i; apply (pd2_lin (P i) u0 u).
      + intros u v. apply functional_extensionality. intros i. apply pd2_sym.
    - split; [|split]; intros u v; apply LL; intros i; intros.
      + rewrite !(proj2 (pd3_sym (P i) u0 u v _)). rewrite !(proj1 (pd3_sym (P i) u0 u _ v)). apply pd3_lin.
      + rewrite !(proj2 (pd3_sym (P i) u0 u v _)). rewrite !(proj1 (pd3_sym (P i) u0 u _ v)). apply pd3_lin.
      + rewrite !(proj1 (pd3_sym (P i) u0 u _ v)). apply pd3_lin.
      + rewrite !(proj1 (pd3_sym (P i) u0 u _ v)). apply pd3_lin.
      + apply pd3_lin.
      + apply pd3_lin.
    - intros n g c Hn H0 E i. destruct (poly_expands (P i) n g c Hn E i) as [C HC]. exists C. revert HC. apply near0_impl. intros h Hh. unfold pfield at 1.
      assert (taylor I n (compose I (pfield P u0) (fun v i => pd1 (P i) u0 v) (fun v w i => pd2 (P i) u0 v w) (fun v w x i => pd3 (P i) u0 v w x) c) h i = taylor I n (fun k _ => pcomp (P i) (c 0%nat) c k) h i) as ->; [|exact Hh].
      apply taylor_ext. intros k Hk. rewrite <- H0. destruct k as [|[|[|[|k]]]]; try lia; reflexivity.
  Qed.

  (** ** matrices with finite rows *)
  Definition matrix (rows : I -> list (R * I)) (u : vec) : vec := fun i => fold_right (fun aj s => fst aj * u (snd aj) + s) 0 (rows i).
  Lemma matrix_regular rows : regular I (matrix rows).
  Proof.
    split; [split; intros; apply functional_extensionality; intros i; unfold matrix, IntegratorsModel.vadd, IntegratorsModel.vscal; induction (rows i) as [|aj l IH]; cbn; try ring; rewrite IH; ring|]. split.
    - intros g B i. unfold matrix. induction (rows i) as [|aj l [C HC]].
      + exists 0. apply near0_true. intros h. cbn. rewrite Rabs_R0. lra.
      + destruct (B (snd aj)) as [D HD]. exists (Rabs (fst aj) * D + C). generalize (near0_and _ _ HC HD). apply near0_impl. intros h [A1 A2]. cbn.
        eapply Rle_trans; [apply Rabs_triang|]. apply Rplus_le_compat; [|exact A1]. rewrite Rabs_mult. apply Rmult_le_compat_l; [apply Rabs_pos|exact A2].
    - intros n g c E i. unfold matrix. set (f := fun (l : list (R * I)) (u : vec) => fold_right (fun aj s => fst aj * u (snd aj) + s) 0 l).
      change (exists C, near0 (fun h => Rabs (f (rows i) (g h) - taylor I n (fun k i => f (rows i) (c k)) h i) <= C * Rabs h ^ S n)).
      assert (forall l, exists C, near0 (fun h => Rabs (f l (g h) - gsum 0 Rplus (S n) (fun k => f l (c k) * h ^ k)) <= C * Rabs h ^ S n)) as H; [|exact (H (rows i))].
      induction l as [|aj l [C HC]].
      + exists 0. apply near0_true. intros h. cbn [f fold_right]. rewrite gsum_zero by (intros; cbn; ring). cbn. rewrite Rminus_0_r, Rabs_R0. lra.
      + destruct (E (snd aj)) as [D HD]. exists (Rabs (fst aj) * D + C). generalize (near0_and _ _ HC HD). apply near0_impl. intros h [A1 A2].
        assert (gsum 0 Rplus (S n) (fun k => f (aj :: l) (c k) * h ^ k) = fst aj * taylor I n c h (snd aj) + gsum 0 Rplus (S n) (fun k => f l (c k) * h ^ k)) as ->.
        { unfold taylor. rewrite <- gsum_scal, <- gsum_add. apply gsum_ext_R. intros k _. cbn [f fold_right]. fold (f l (c k)). ring. }
        change (f (aj :: l) (g h)) with (fst aj * g h (snd aj) + f l (g h)).
        replace (_ - _) with (fst aj * (g h (snd aj) - taylor I n c h (snd aj)) + (f l (g h) - gsum 0 Rplus (S n) (fun k => f l (c k) * h ^ k))) by ring.
        eapply Rle_trans; [apply Rabs_triang|]. rewrite Rmult_plus_distr_r. apply Rplus_le_compat; [|exact A1]. rewrite Rabs_mult, Rmult_assoc. apply Rmult_le_compat_l; [apply Rabs_pos|exact A2].
  Qed.
  (** solvers of diagonal systems (Fourier spaces) *)
  Lemma diagonal_solves g (lam : vec) B : (forall i, Rabs (lam i) <= B) ->
    solves I g (fun u => u) (fun u i => lam i * u i) (fun h r i => r i / (1 - h * g * lam i)).
  Proof.
    intros HB.
    assert (near0 (fun h => forall i, 1/2 <= 1 - h * g * lam i)) as Hn.
    { pose (C := Rabs g * Rabs B). assert (0 <= C) as HC by (apply Rmult_le_pos; apply Rabs_pos).
      exists (1 / (2 * (C + 1))). split; [apply Rdiv_lt_0_compat; lra|]. intros h Hh i.
      assert (Rabs (h * g * lam i) <= 1/2) as Hb.
      { rewrite Rmult_assoc, Rabs_mult. assert (Rabs (g * lam i) <= C) as Hgl. { unfold C. rewrite Rabs_mult. apply Rmult_le_compat_l; [apply Rabs_pos|]. eapply Rle_trans; [apply HB|apply Rle_abs]. }
        pose proof (Rabs_pos h) as Hp. pose proof (Rabs_pos (g * lam i)) as Hp'. apply Rle_trans with (1 / (2 * (C + 1)) * (C + 1)).
        - apply Rmult_le_compat; lra.
        - right. field. lra. }
      apply Rabs_le_inv in Hb || idtac. pose proof (Rle_abs (h * g * lam i)). lra. }
    split.
    - revert Hn. apply near0_impl. intros h Hh r. apply functional_extensionality. intros i. specialize (Hh i).
      unfold vsub, IntegratorsModel.vscal. field. lra.
    - intros f Bf i. destruct (Bf i) as [C HC]. exists (2 * C). generalize (near0_and _ _ Hn HC). apply near0_impl. intros h [A1 A2]. specialize (A1 i).
      unfold Rdiv. rewrite Rabs_mult, Rabs_inv, (Rabs_right (1 - h * g * lam i)) by lra.
      apply Rle_trans with (C * 2); [|lra]. pose proof (Rabs_pos (f h i)). apply Rmult_le_compat; try lra; [left; apply Rinv_0_lt_compat; lra|].
      replace 2 with (/ (1/2)) by field. apply Rinv_le_contravar; lra.
  Qed.
End Poly.
