(** EvalProofs2.v -- lemmas for EvalModel2. *)
From Coq Require Import Arith ZArith Reals List Bool Lia Lra.
From Verif Require Import Base SparseModel EvalModel2 EvalSpec2.
Import ListNotations.
Local Open Scope R_scope.

(** ** accumulating loops *)
Section Acc.
  Variables (F : Type) (zero : F) (add : F -> F -> F).
  Hypothesis add_0_r : forall x, add x zero = x.
  Hypothesis add_assoc : forall x y z, add x (add y z) = add (add x y) z.
  Definition accs (body : (nat -> F) -> nat -> F) (g : nat -> F) : Prop := forall b j, body b j = add (b j) (g j).
  Lemma acc_loop n s (body : nat -> (nat -> F) -> nat -> F) (g : nat -> nat -> F) :
    (forall k, (s <= k < s + n)%nat -> accs (body k) (g k)) -> accs (for_up n s body) (fun j => gsum zero add n (fun k => g (s + k)%nat j)).
  Proof.
    intros H b j. induction n as [|n IH]; [cbn; now rewrite add_0_r|].
    rewrite for_up_snoc. rewrite (H (s + n)%nat) by lia. rewrite IH by (intros; apply H; lia). cbn [gsum]. now rewrite add_assoc.
  Qed.
  Lemma acc_upd i (v : F) : accs (fun b => upd b i (add (b i) v)) (fun j => if Nat.eqb j i then v else zero).
  Proof. intros b j. unfold upd. destruct (Nat.eqb_spec j i) as [->|]; auto. Qed.
  Lemma gsum_pick n (h : nat -> F) j : (forall x, add zero x = x) -> gsum zero add n (fun i => if Nat.eqb j i then h i else zero) = if Nat.ltb j n then h j else zero.
  Proof.
    intros Hl. induction n as [|n IH]; [reflexivity|]. cbn [gsum]. rewrite IH.
    destruct (Nat.ltb_spec j n), (Nat.ltb_spec j (S n)), (Nat.eqb_spec j n); try lia; subst; rewrite ?add_0_r, ?Hl; reflexivity.
  Qed.
End Acc.

Definition accR := accs R Rplus.
Definition accC := accs Cx cadd.
Lemma cadd_0_r a : cadd a c0 = a. Proof. destruct a. unfold cadd, c0. cbn. f_equal; ring. Qed.
Lemma cadd_0_l a : cadd c0 a = a. Proof. destruct a. unfold cadd, c0. cbn. f_equal; ring. Qed.
Lemma cadd_assoc a b c : cadd a (cadd b c) = cadd (cadd a b) c. Proof. unfold cadd. cbn. f_equal; ring. Qed.
Lemma accR_loop n body g : (forall k, (k < n)%nat -> accR (body k) (g k)) -> accR (for_up n 0 body) (fun j => sumR n (fun k => g k j)).
Proof. intros H. apply (acc_loop R 0 Rplus); [intros; ring|intros; ring|]. intros k Hk. apply H. lia. Qed.
Lemma accC_loop n body g : (forall k, (k < n)%nat -> accC (body k) (g k)) -> accC (for_up n 0 body) (fun j => csum n (fun k => g k j)).
Proof. intros H. apply (acc_loop Cx c0 cadd); [exact cadd_0_r|exact cadd_assoc|]. intros k Hk. apply H. lia. Qed.
Lemma sumR_pick n h j : sumR n (fun i => if Nat.eqb j i then h i else 0) = if Nat.ltb j n then h j else 0.
Proof. apply gsum_pick; intros; ring. Qed.
Lemma csum_pick n h j : csum n (fun i => if Nat.eqb j i then h i else c0) = if Nat.ltb j n then h j else c0.
Proof. apply gsum_pick; [exact cadd_0_r|exact cadd_0_l]. Qed.

Lemma sumR_S n f : sumR (S n) f = sumR n f + f n. Proof. reflexivity. Qed.
Lemma csum_S n f : csum (S n) f = cadd (csum n f) (f n). Proof. reflexivity. Qed.
Lemma sumR_ext n f g : (forall i, (i < n)%nat -> f i = g i) -> sumR n f = sumR n g. Proof. apply gsum_ext. Qed.
Lemma csum_ext n f g : (forall i, (i < n)%nat -> f i = g i) -> csum n f = csum n g. Proof. apply gsum_ext. Qed.
Lemma sumR_zero n f : (forall i, (i < n)%nat -> f i = 0) -> sumR n f = 0.
Proof. induction n as [|n IH]; intros H; [reflexivity|]. rewrite sumR_S, IH, H by (intros; try apply H; lia). ring. Qed.
Lemma csum_zero n f : (forall i, (i < n)%nat -> f i = c0) -> csum n f = c0.
Proof. induction n as [|n IH]; intros H; [reflexivity|]. rewrite csum_S, IH, H by (intros; try apply H; lia). apply cadd_0_r. Qed.
Lemma sumR_scal n c f : sumR n (fun i => c * f i) = c * sumR n f.
Proof. induction n as [|n IH]; [cbn; ring|]. rewrite !sumR_S, IH. ring. Qed.
Lemma sumR_plus n f g : sumR n (fun i => f i + g i) = sumR n f + sumR n g.
Proof. induction n as [|n IH]; [cbn; ring|]. rewrite !sumR_S, IH. ring. Qed.
Lemma sumR_swap n m f : sumR n (fun i => sumR m (fun j => f i j)) = sumR m (fun j => sumR n (fun i => f i j)).
Proof. induction n as [|n IH]; [cbn; symmetry; apply sumR_zero; reflexivity|]. rewrite sumR_S, IH, <- sumR_plus. reflexivity. Qed.
Lemma cre_csum n f : cre (csum n f) = sumR n (fun i => cre (f i)).
Proof. induction n as [|n IH]; [reflexivity|]. rewrite csum_S, sumR_S, <- IH. reflexivity. Qed.
Lemma cim_csum n f : cim (csum n f) = sumR n (fun i => cim (f i)).
Proof. induction n as [|n IH]; [reflexivity|]. rewrite csum_S, sumR_S, <- IH. reflexivity. Qed.
Lemma cx_eq a b : cre a = cre b -> cim a = cim b -> a = b. Proof. destruct a, b; cbn; congruence. Qed.
Lemma csum_swap n m f : csum n (fun i => csum m (fun j => f i j)) = csum m (fun j => csum n (fun i => f i j)).
Proof.
  apply cx_eq.
  - rewrite !cre_csum. rewrite (sumR_ext n _ (fun i => sumR m (fun j => cre (f i j)))) by (intros; apply cre_csum). rewrite sumR_swap.
    apply sumR_ext. intros. symmetry. apply cre_csum.
  - rewrite !cim_csum. rewrite (sumR_ext n _ (fun i => sumR m (fun j => cim (f i j)))) by (intros; apply cim_csum). rewrite sumR_swap.
    apply sumR_ext. intros. symmetry. apply cim_csum.
Qed.
Lemma cmul_comm a b : cmul a b = cmul b a. Proof. apply cx_eq; cbn; ring. Qed.
Lemma cmul_assoc a b c : cmul a (cmul b c) = cmul (cmul a b) c. Proof. apply cx_eq; cbn; ring. Qed.
Lemma cmul_add_r a b c : cmul (cadd a b) c = cadd (cmul a c) (cmul b c). Proof. apply cx_eq; cbn; ring. Qed.
Lemma csum_mul_r n f c : cmul (csum n f) c = csum n (fun i => cmul (f i) c).
Proof. induction n as [|n IH]; [apply cx_eq; cbn; ring|]. rewrite !csum_S, cmul_add_r, IH. reflexivity. Qed.
Lemma csum_mul_l n f c : cmul c (csum n f) = csum n (fun i => cmul c (f i)).
Proof. rewrite cmul_comm, csum_mul_r. apply csum_ext. intros. apply cmul_comm. Qed.
Lemma cis_add a b : cis (a + b) = cmul (cis a) (cis b).
Proof. apply cx_eq; cbn; [rewrite cos_plus; ring|rewrite sin_plus; ring]. Qed.

Lemma add_twice_acc t i p : accR (add_twice t i p) (fun j => if Nat.eqb j i then (if t then 2 else 1) * p else 0).
Proof.
  intros b j. unfold add_twice. destruct t; unfold upd; destruct (Nat.eqb_spec j i) as [->|]; rewrite ?Nat.eqb_refl; ring.
Qed.

(** point loop innermost, accumulating into real output *)
Lemma pts_R npts (t : nat -> bool) (p : nat -> R) :
  accR (for_up npts 0 (fun i b => add_twice (t i) i (p i) b)) (fun j => if Nat.ltb j npts then (if t j then 2 else 1) * p j else 0).
Proof.
  intros b j. rewrite (accR_loop npts _ (fun i j => if Nat.eqb j i then (if t i then 2 else 1) * p i else 0)).
  - now rewrite (sumR_pick npts (fun i => (if t i then 2 else 1) * p i)).
  - intros k _. apply add_twice_acc.
Qed.
Lemma pts_C npts (h : nat -> Cx) (body : nat -> (nat -> Cx) -> nat -> Cx) :
  (forall i b, body i b = upd b i (cadd (b i) (h i))) ->
  accC (for_up npts 0 body) (fun j => if Nat.ltb j npts then h j else c0).
Proof.
  intros Hb b j. rewrite (accC_loop npts _ (fun i j => if Nat.eqb j i then h i else c0)).
  - now rewrite csum_pick.
  - intros k _ b' j'. rewrite Hb. apply acc_upd. exact cadd_0_r.
Qed.
Lemma pts_real npts (h : nat -> R) (body : nat -> (nat -> R) -> nat -> R) :
  (forall i b, body i b = upd b i (b i + h i)) ->
  accR (for_up npts 0 body) (fun j => if Nat.ltb j npts then h j else 0).
Proof.
  intros Hb b j. rewrite (accR_loop npts _ (fun i j => if Nat.eqb j i then h i else 0)).
  - now rewrite sumR_pick.
  - intros k _ b' j'. rewrite Hb. apply acc_upd. intros; ring.
Qed.

Lemma accR_app body g b j : accR body g -> body b j = b j + g j. Proof. intros H. apply H. Qed.
Lemma accC_app body g b j : accC body g -> body b j = cadd (b j) (g j). Proof. intros H. apply H. Qed.
Lemma accR_ext body g g' : accR body g -> (forall j, g j = g' j) -> accR body g'.
Proof. intros H E b j. rewrite <- E. apply H. Qed.
Lemma accC_ext body g g' : accC body g -> (forall j, g j = g' j) -> accC body g'.
Proof. intros H E b j. rewrite <- E. apply H. Qed.

Definition dbl (t : bool) (p : R) : R := (if t then 2 else 1) * p.
Lemma ltb_sum n j npts f : sumR n (fun k => if Nat.ltb j npts then f k else 0) = if Nat.ltb j npts then sumR n f else 0.
Proof. destruct (Nat.ltb j npts); [reflexivity|apply sumR_zero; reflexivity]. Qed.
Lemma ltb_csum n j npts f : csum n (fun k => if Nat.ltb j npts then f k else c0) = if Nat.ltb j npts then csum n f else c0.
Proof. destruct (Nat.ltb j npts); [reflexivity|apply csum_zero; reflexivity]. Qed.

(** two nested loops, then the points *)
Lemma nest2_R npts n0 n1 (t : nat -> nat -> nat -> bool) (p : nat -> nat -> nat -> R) :
  accR (for_up n0 0 (fun k b => for_up n1 0 (fun l b => for_up npts 0 (fun i b => add_twice (t k l i) i (p k l i) b) b) b))
       (fun j => if Nat.ltb j npts then sumR n0 (fun k => sumR n1 (fun l => dbl (t k l j) (p k l j))) else 0).
Proof.
  eapply accR_ext.
  - apply accR_loop. intros k _. apply accR_loop. intros l _. apply (pts_R npts (t k l) (p k l)).
  - intros j. cbv beta. rewrite <- ltb_sum. apply sumR_ext. intros k _. rewrite <- ltb_sum. reflexivity.
Qed.
Lemma nest3_R npts n0 n1 n2 (t : nat -> nat -> nat -> nat -> bool) (p : nat -> nat -> nat -> nat -> R) :
  accR (for_up n0 0 (fun k b => for_up n1 0 (fun l b => for_up n2 0 (fun m b => for_up npts 0 (fun i b => add_twice (t k l m i) i (p k l m i) b) b) b) b))
       (fun j => if Nat.ltb j npts then sumR n0 (fun k => sumR n1 (fun l => sumR n2 (fun m => dbl (t k l m j) (p k l m j)))) else 0).
Proof.
  eapply accR_ext.
  - apply accR_loop. intros k _. apply (nest2_R npts n1 n2 (t k) (p k)).
  - intros j. cbv beta. rewrite <- ltb_sum. reflexivity.
Qed.
(** points outermost *)
Lemma nest3_R_out npts n0 n1 n2 (t : nat -> nat -> nat -> nat -> bool) (p : nat -> nat -> nat -> nat -> R) :
  accR (for_up npts 0 (fun i b => for_up n0 0 (fun k b => for_up n1 0 (fun l b => for_up n2 0 (fun m b => add_twice (t k l m i) i (p k l m i) b) b) b) b))
       (fun j => if Nat.ltb j npts then sumR n0 (fun k => sumR n1 (fun l => sumR n2 (fun m => dbl (t k l m j) (p k l m j)))) else 0).
Proof.
  eapply accR_ext.
  - apply accR_loop. intros i _. eapply accR_ext.
    + apply accR_loop. intros k _. apply accR_loop. intros l _. apply accR_loop. intros m _. apply add_twice_acc.
    + intros j. instantiate (1 := fun i j => if Nat.eqb j i then sumR n0 (fun k => sumR n1 (fun l => sumR n2 (fun m => dbl (t k l m i) (p k l m i)))) else 0).
      cbv beta. destruct (Nat.eqb_spec j i) as [->|Hj]; [reflexivity|].
      apply sumR_zero. intros. apply sumR_zero. intros. apply sumR_zero. reflexivity.
  - intros j. cbv beta. apply (sumR_pick npts (fun i => sumR n0 (fun k => sumR n1 (fun l => sumR n2 (fun m => dbl (t k l m i) (p k l m i)))))).
Qed.
Lemma nest2_C npts n0 n1 (h : nat -> nat -> nat -> Cx) body :
  (forall k l i b, body k l i b = upd b i (cadd (b i) (h k l i))) ->
  accC (for_up n0 0 (fun k b => for_up n1 0 (fun l b => for_up npts 0 (body k l) b) b))
       (fun j => if Nat.ltb j npts then csum n0 (fun k => csum n1 (fun l => h k l j)) else c0).
Proof.
  intros Hb. eapply accC_ext.
  - apply accC_loop. intros k _. apply accC_loop. intros l _. apply (pts_C npts (h k l)). apply Hb.
  - intros j. cbv beta. rewrite <- ltb_csum. apply csum_ext. intros k _. rewrite <- ltb_csum. reflexivity.
Qed.
Lemma nest3_C npts n0 n1 n2 (h : nat -> nat -> nat -> nat -> Cx) body :
  (forall k l m i b, body k l m i b = upd b i (cadd (b i) (h k l m i))) ->
  accC (for_up n0 0 (fun k b => for_up n1 0 (fun l b => for_up n2 0 (fun m b => for_up npts 0 (body k l m) b) b) b))
       (fun j => if Nat.ltb j npts then csum n0 (fun k => csum n1 (fun l => csum n2 (fun m => h k l m j))) else c0).
Proof.
  intros Hb. eapply accC_ext.
  - apply accC_loop. intros k _. apply (nest2_C npts n1 n2 (h k)). apply Hb.
  - intros j. cbv beta. rewrite <- ltb_csum. reflexivity.
Qed.

(** ** the kernels *)
Lemma conj_test_spec ii M : conj_test ii M = ((0 <? ii) && (0 <? M))%Z.
Proof. unfold conj_test. rewrite Z.land_0_l. reflexivity. Qed.
Lemma last_conj_pos N : (2 <= N)%nat -> (0 <? last_conj_index N)%Z = true.
Proof.
  intros H. apply Z.ltb_lt. unfold last_conj_index. pose proof (Nat.div_le_mono 2 N 2 ltac:(lia) H) as E. change (2 / 2)%nat with 1%nat in E.
  destruct (Nat.even N); lia.
Qed.
(** the test that is run: every mode but 0 *)
Lemma conj_test_run N k : (2 <= N)%nat -> conj_test (Z.of_nat k) (last_conj_index N) = (0 <? k)%nat.
Proof.
  intros H. rewrite conj_test_spec, last_conj_pos, andb_true_r by exact H.
  destruct (Z.ltb_spec 0 (Z.of_nat k)), (Nat.ltb_spec 0 k); lia || reflexivity.
Qed.
Lemma stored_dbl N k t : stored N k t = dbl (has_partner N k) (cre t).
Proof. unfold stored, dbl. destruct (has_partner N k); cbn; ring. Qed.

Lemma eval2_r_acc npts n0 n1 u P0 P1 r2c M start :
  accR (fun b => eval2_r npts n0 n1 b u P0 P1 r2c M start)
    (fun j => if Nat.ltb j npts then sumR n0 (fun k => sumR n1 (fun l =>
       dbl (conj_test (if (r2c =? 0)%Z then (Z.of_nat k + start)%Z else (Z.of_nat l + start)%Z) M) (cre (cmul (cmul (u k l) (P0 j k)) (P1 j l))))) else 0).
Proof. exact (nest2_R npts n0 n1 (fun k l _ => _) (fun k l i => cre (cmul (cmul (u k l) (P0 i k)) (P1 i l)))). Qed.

(** the sum over the ranks of a decomposed axis *)
Lemma allreduce_ext {A} (l : list A) f g : (forall a, In a l -> f a = g a) -> allreduce l f = allreduce l g.
Proof. induction l as [|a l IH]; intros H; [reflexivity|]. unfold allreduce in *. cbn [fold_right]. rewrite (H a) by (left; reflexivity). f_equal. apply IH. intros; apply H; right; auto. Qed.
Lemma sumR_split n m f : sumR (n + m) f = sumR n f + sumR m (fun i => f (n + i)%nat).
Proof.
  induction m as [|m IH]; [rewrite Nat.add_0_r; cbn; ring|]. rewrite Nat.add_succ_r, !sumR_S, IH. ring.
Qed.
Lemma allreduce_ranks lens s f : allreduce (ranks s lens) (fun r => sumR (snd r) (fun k => f (fst r + k)%nat)) = sumR (total lens) (fun k => f (s + k)%nat).
Proof.
  revert s. induction lens as [|n l IH]; intros s; [reflexivity|]. cbn [ranks total fold_right]. unfold allreduce in *. cbn [fold_right fst snd].
  rewrite IH. fold (total l). rewrite sumR_split. f_equal. apply sumR_ext. intros i _. f_equal. lia.
Qed.
Lemma allreduce_sum {A} (l : list A) n f : allreduce l (fun a => sumR n (fun k => f a k)) = sumR n (fun k => allreduce l (fun a => f a k)).
Proof.
  induction l as [|a l IH]; [symmetry; apply sumR_zero; reflexivity|]. unfold allreduce in *. cbn [fold_right]. rewrite IH, <- sumR_plus. reflexivity.
Qed.
Lemma allreduce_grid2 lens0 lens1 f :
  allreduce (ranks 0 lens0) (fun r0 => allreduce (ranks 0 lens1) (fun r1 =>
    sumR (snd r0) (fun k => sumR (snd r1) (fun l => f (fst r0 + k)%nat (fst r1 + l)%nat))))
  = sumR (total lens0) (fun k => sumR (total lens1) (fun l => f k l)).
Proof.
  rewrite (allreduce_ext _ _ (fun r0 => sumR (snd r0) (fun k => sumR (total lens1) (fun l => f (fst r0 + k)%nat l)))).
  - apply (allreduce_ranks lens0 0 (fun k => sumR (total lens1) (fun l => f k l))).
  - intros r0 _. rewrite allreduce_sum. apply sumR_ext. intros k _. apply (allreduce_ranks lens1 0 (fun l => f (fst r0 + k)%nat l)).
Qed.
Lemma allreduce_grid3 lens0 lens1 lens2 f :
  allreduce (ranks 0 lens0) (fun r0 => allreduce (ranks 0 lens1) (fun r1 => allreduce (ranks 0 lens2) (fun r2 =>
    sumR (snd r0) (fun k => sumR (snd r1) (fun l => sumR (snd r2) (fun m => f (fst r0 + k)%nat (fst r1 + l)%nat (fst r2 + m)%nat))))))
  = sumR (total lens0) (fun k => sumR (total lens1) (fun l => sumR (total lens2) (fun m => f k l m))).
Proof.
  rewrite (allreduce_ext _ _ (fun r0 => sumR (snd r0) (fun k => sumR (total lens1) (fun l => sumR (total lens2) (fun m => f (fst r0 + k)%nat l m))))).
  - apply (allreduce_ranks lens0 0 (fun k => sumR (total lens1) (fun l => sumR (total lens2) (fun m => f k l m)))).
  - intros r0 _. rewrite (allreduce_ext _ _ (fun r1 => sumR (snd r0) (fun k => sumR (snd r1) (fun l => sumR (total lens2) (fun m => f (fst r0 + k)%nat (fst r1 + l)%nat m))))).
    + rewrite allreduce_sum. apply sumR_ext. intros k _. apply (allreduce_ranks lens1 0 (fun l => sumR (total lens2) (fun m => f (fst r0 + k)%nat l m))).
    + intros r1 _. rewrite allreduce_sum. apply sumR_ext. intros k _. rewrite allreduce_sum. apply sumR_ext. intros l _.
      apply (allreduce_ranks lens2 0 (fun m => f (fst r0 + k)%nat (fst r1 + l)%nat m)).
Qed.

(** what the kernels compute with the given conjugate test, on all ranks together *)
Definition run2 (N : nat) (r2c : Z) (n0 n1 : nat) (u : nat -> nat -> Cx) (F0 F1 : nat -> Cx) : R :=
  sumR n0 (fun k => sumR n1 (fun l => dbl (0 <? (if (r2c =? 0)%Z then k else l))%nat (cre (cmul (cmul (u k l) (F0 k)) (F1 l))))).
Definition run3 (N : nat) (r2c : Z) (n0 n1 n2 : nat) (u : nat -> nat -> nat -> Cx) (F0 F1 F2 : nat -> Cx) : R :=
  sumR n0 (fun k => sumR n1 (fun l => sumR n2 (fun m =>
    dbl (0 <? (if (r2c =? 0)%Z then k else if (r2c =? 1)%Z then l else m))%nat (cre (cmul (cmul (cmul (u k l m) (F0 k)) (F1 l)) (F2 m)))))).
Lemma eval_cython_2D_run N r2c lens0 lens1 npts u P0 P1 i : (2 <= N)%nat -> (i < npts)%nat ->
  eval_cython_2D N r2c lens0 lens1 npts u P0 P1 i = run2 N r2c (total lens0) (total lens1) u (P0 i) (P1 i).
Proof.
  intros HN Hi. unfold eval_cython_2D, run2. rewrite <- allreduce_grid2.
  apply allreduce_ext. intros [s0 m0] _. apply allreduce_ext. intros [s1 m1] _. cbn [fst snd].
  rewrite (eval2_r_acc npts m0 m1 _ _ _ r2c _ _ (fun _ => 0) i). rewrite (proj2 (Nat.ltb_lt i npts) Hi). rewrite Rplus_0_l.
  apply sumR_ext. intros k _. apply sumR_ext. intros l _. unfold loc. f_equal.
  destruct (r2c =? 0)%Z; rewrite <- (conj_test_run N) by exact HN; f_equal; lia.
Qed.
Lemma eval3_ccc1_acc npts n0 n1 n2 u P0 P1 P2 r2c M start :
  accR (fun b => eval3_ccc1 npts n0 n1 n2 b u P0 P1 P2 r2c M start)
    (fun j => if Nat.ltb j npts then sumR n0 (fun k => sumR n1 (fun l => sumR n2 (fun m =>
       dbl (conj_test (pick3 r2c k l m start) M) (cre (cmul (cmul (cmul (u k l m) (P0 j k)) (P1 j l)) (P2 j m)))))) else 0).
Proof.
  eapply accR_ext.
  - exact (nest3_R_out npts n0 n1 n2 (fun k l m _ => conj_test (pick3 r2c k l m start) M)
      (fun k l m i => cre (u k l m) * cre (cmul (cmul (P0 i k) (P1 i l)) (P2 i m)) - cim (u k l m) * cim (cmul (cmul (P0 i k) (P1 i l)) (P2 i m)))).
  - intros j. cbv beta. destruct (Nat.ltb j npts); [|reflexivity]. apply sumR_ext; intros k _; apply sumR_ext; intros l _; apply sumR_ext; intros m _.
    f_equal. cbn. ring.
Qed.
Lemma eval_cython_3D_run N r2c lens0 lens1 lens2 npts u P0 P1 P2 i : (2 <= N)%nat -> (i < npts)%nat ->
  eval_cython_3D N r2c lens0 lens1 lens2 npts u P0 P1 P2 i = run3 N r2c (total lens0) (total lens1) (total lens2) u (P0 i) (P1 i) (P2 i).
Proof.
  intros HN Hi. unfold eval_cython_3D, run3. rewrite <- allreduce_grid3.
  apply allreduce_ext. intros [s0 m0] _. apply allreduce_ext. intros [s1 m1] _. apply allreduce_ext. intros [s2 m2] _. cbn [fst snd].
  rewrite (eval3_ccc1_acc npts m0 m1 m2 _ _ _ _ r2c _ _ (fun _ => 0) i). rewrite (proj2 (Nat.ltb_lt i npts) Hi). rewrite Rplus_0_l.
  apply sumR_ext. intros k _. apply sumR_ext. intros l _. apply sumR_ext. intros m _. unfold loc, pick3. f_equal.
  destruct (r2c =? 0)%Z; [|destruct (r2c =? 1)%Z]; rewrite <- (conj_test_run N) by exact HN; f_equal; lia.
Qed.
(** the other 3D kernels with an R2C axis are the kernel ccc1 *)
Lemma accR_same f g h b j : accR f h -> accR g h -> f b j = g b j.
Proof. intros Hf Hg. rewrite (Hf b j), (Hg b j). reflexivity. Qed.
Lemma pick_nat (t : bool) a b s : (if t then (Z.of_nat a + s)%Z else (Z.of_nat b + s)%Z) = (Z.of_nat (if t then a else b) + s)%Z.
Proof. destruct t; reflexivity. Qed.
Lemma eval3_rcc1_same npts n0 n1 n2 b u P0 P1 P2 r2c M start j : r2c = 1%Z \/ r2c = 2%Z ->
  eval3_rcc1 npts n0 n1 n2 b u P0 P1 P2 r2c M start j = eval3_ccc1 npts n0 n1 n2 b u (fun i k => cofR (P0 i k)) P1 P2 r2c M start j.
Proof.
  intros Hr. eapply (accR_same (fun b => eval3_rcc1 npts n0 n1 n2 b u P0 P1 P2 r2c M start) (fun b => eval3_ccc1 npts n0 n1 n2 b u (fun i k => cofR (P0 i k)) P1 P2 r2c M start)); [|apply eval3_ccc1_acc].
  eapply accR_ext.
  - exact (nest3_R npts n0 n1 n2 (fun k l m _ => conj_test (if (r2c =? 1)%Z then (Z.of_nat l + start)%Z else (Z.of_nat m + start)%Z) M)
      (fun k l m i => P0 i k * (cre (u k l m) * cre (cmul (P1 i l) (P2 i m)) - cim (u k l m) * cim (cmul (P1 i l) (P2 i m))))).
  - intros i. cbv beta. destruct (Nat.ltb i npts); [|reflexivity]. apply sumR_ext; intros k _; apply sumR_ext; intros l _; apply sumR_ext; intros m _.
    f_equal; [destruct Hr as [-> | ->]; reflexivity|cbn; ring].
Qed.
Lemma eval3_crc1_same npts n0 n1 n2 b u P0 P1 P2 r2c M start j : r2c = 0%Z \/ r2c = 2%Z ->
  eval3_crc1 npts n0 n1 n2 b u P0 P1 P2 r2c M start j = eval3_ccc1 npts n0 n1 n2 b u P0 (fun i k => cofR (P1 i k)) P2 r2c M start j.
Proof.
  intros Hr. eapply (accR_same (fun b => eval3_crc1 npts n0 n1 n2 b u P0 P1 P2 r2c M start) (fun b => eval3_ccc1 npts n0 n1 n2 b u P0 (fun i k => cofR (P1 i k)) P2 r2c M start)); [|apply eval3_ccc1_acc].
  eapply accR_ext.
  - exact (nest3_R npts n0 n1 n2 (fun k l m _ => conj_test (if (r2c =? 0)%Z then (Z.of_nat k + start)%Z else (Z.of_nat m + start)%Z) M)
      (fun k l m i => P1 i l * (cre (u k l m) * cre (cmul (P0 i k) (P2 i m)) - cim (u k l m) * cim (cmul (P0 i k) (P2 i m))))).
  - intros i. cbv beta. destruct (Nat.ltb i npts); [|reflexivity]. apply sumR_ext; intros k _; apply sumR_ext; intros l _; apply sumR_ext; intros m _.
    f_equal; [destruct Hr as [-> | ->]; reflexivity|cbn; ring].
Qed.
Lemma eval3_ccr1_same npts n0 n1 n2 b u P0 P1 P2 r2c M start j : r2c = 0%Z \/ r2c = 1%Z ->
  eval3_ccr1 npts n0 n1 n2 b u P0 P1 P2 r2c M start j = eval3_ccc1 npts n0 n1 n2 b u P0 P1 (fun i k => cofR (P2 i k)) r2c M start j.
Proof.
  intros Hr. eapply (accR_same (fun b => eval3_ccr1 npts n0 n1 n2 b u P0 P1 P2 r2c M start) (fun b => eval3_ccc1 npts n0 n1 n2 b u P0 P1 (fun i k => cofR (P2 i k)) r2c M start)); [|apply eval3_ccc1_acc].
  eapply accR_ext.
  - exact (nest3_R npts n0 n1 n2 (fun k l m _ => conj_test (if (r2c =? 0)%Z then (Z.of_nat k + start)%Z else (Z.of_nat l + start)%Z) M)
      (fun k l m i => P2 i m * (cre (u k l m) * cre (cmul (P0 i k) (P1 i l)) - cim (u k l m) * cim (cmul (P0 i k) (P1 i l))))).
  - intros i. cbv beta. destruct (Nat.ltb i npts); [|reflexivity]. apply sumR_ext; intros k _; apply sumR_ext; intros l _; apply sumR_ext; intros m _.
    f_equal; [destruct Hr as [-> | ->]; reflexivity|cbn; ring].
Qed.
Lemma eval3_two_real_same npts n0 n1 n2 b u P0 P1 P2 r2c M start j :
  eval3_two_real npts n0 n1 n2 b u P0 P1 P2 r2c M start j = eval3_ccc1 npts n0 n1 n2 b u P0 P1 P2 r2c M start j.
Proof.
  eapply (accR_same (fun b => eval3_two_real npts n0 n1 n2 b u P0 P1 P2 r2c M start) (fun b => eval3_ccc1 npts n0 n1 n2 b u P0 P1 P2 r2c M start)); [|apply eval3_ccc1_acc].
  exact (nest3_R npts n0 n1 n2 (fun k l m _ => conj_test (pick3 r2c k l m start) M) (fun k l m i => cre (cmul (cmul (cmul (u k l m) (P0 i k)) (P1 i l)) (P2 i m)))).
Qed.

(** ** low memory kernels *)
Lemma lm2_cc1_same npts n0 n1 b u x0 x1 w0 w1 r2c M start j :
  lm2_cc1 npts n0 n1 b u x0 x1 w0 w1 r2c M start j = eval2_r npts n0 n1 b u (fun i k => cis (w0 k * x0 i)) (fun i l => cis (w1 l * x1 i)) r2c M start j.
Proof.
  eapply (accR_same (fun b => lm2_cc1 npts n0 n1 b u x0 x1 w0 w1 r2c M start) (fun b => eval2_r npts n0 n1 b u _ _ r2c M start)); [|apply eval2_r_acc].
  eapply accR_ext.
  - exact (nest2_R npts n0 n1 (fun k l _ => conj_test (if (r2c =? 0)%Z then (Z.of_nat k + start)%Z else (Z.of_nat l + start)%Z) M)
      (fun k l i => cre (u k l) * cos (w0 k * x0 i + w1 l * x1 i) - cim (u k l) * sin (w0 k * x0 i + w1 l * x1 i))).
  - intros i. cbv beta. destruct (Nat.ltb i npts); [|reflexivity]. apply sumR_ext; intros k _; apply sumR_ext; intros l _. f_equal.
    rewrite <- cmul_assoc, <- cis_add. reflexivity.
Qed.
Lemma lm2_rc1_same npts n0 n1 b u phi x0 x1 w1 r2c M start j :
  lm2_rc1 npts n0 n1 b u phi x0 x1 w1 r2c M start j = eval2_r npts n0 n1 b u (fun i k => cofR (phi k (x0 i))) (fun i l => cis (w1 l * x1 i)) r2c M start j.
Proof.
  eapply (accR_same (fun b => lm2_rc1 npts n0 n1 b u phi x0 x1 w1 r2c M start) (fun b => eval2_r npts n0 n1 b u _ _ r2c M start)); [|apply eval2_r_acc].
  eapply accR_ext.
  - exact (nest2_R npts n0 n1 (fun k l _ => conj_test (if (r2c =? 0)%Z then (Z.of_nat k + start)%Z else (Z.of_nat l + start)%Z) M)
      (fun k l i => phi k (x0 i) * (cre (u k l) * cos (w1 l * x1 i) - cim (u k l) * sin (w1 l * x1 i)))).
  - intros i. cbv beta. destruct (Nat.ltb i npts); [|reflexivity]. apply sumR_ext; intros k _; apply sumR_ext; intros l _. f_equal. cbn. ring.
Qed.
(** two nested loops in the other order *)
Lemma nest2_R_swap npts n0 n1 (t : nat -> nat -> nat -> bool) (p : nat -> nat -> nat -> R) :
  accR (for_up n1 0 (fun l b => for_up n0 0 (fun k b => for_up npts 0 (fun i b => add_twice (t k l i) i (p k l i) b) b) b))
       (fun j => if Nat.ltb j npts then sumR n0 (fun k => sumR n1 (fun l => dbl (t k l j) (p k l j))) else 0).
Proof.
  eapply accR_ext; [exact (nest2_R npts n1 n0 (fun l k => t k l) (fun l k => p k l))|]. intros j. cbv beta. destruct (Nat.ltb j npts); [apply sumR_swap|reflexivity].
Qed.
Lemma lm2_cr1_same npts n0 n1 b u phi x0 x1 w0 r2c M start j :
  lm2_cr1 npts n0 n1 b u phi x0 x1 w0 r2c M start j = eval2_r npts n0 n1 b u (fun i k => cis (w0 k * x0 i)) (fun i l => cofR (phi l (x1 i))) r2c M start j.
Proof.
  eapply (accR_same (fun b => lm2_cr1 npts n0 n1 b u phi x0 x1 w0 r2c M start) (fun b => eval2_r npts n0 n1 b u _ _ r2c M start)); [|apply eval2_r_acc].
  eapply accR_ext.
  - exact (nest2_R_swap npts n0 n1 (fun k l _ => conj_test (if (r2c =? 0)%Z then (Z.of_nat k + start)%Z else (Z.of_nat l + start)%Z) M)
      (fun k l i => phi l (x1 i) * (cre (u k l) * cos (w0 k * x0 i) - cim (u k l) * sin (w0 k * x0 i)))).
  - intros i. cbv beta. destruct (Nat.ltb i npts); [|reflexivity]. apply sumR_ext; intros k _; apply sumR_ext; intros l _. f_equal. cbn. ring.
Qed.
Lemma lm3_ccc1_same npts n0 n1 n2 b u x0 x1 x2 w0 w1 w2 r2c M start j :
  lm3_ccc1 npts n0 n1 n2 b u x0 x1 x2 w0 w1 w2 r2c M start j
  = eval3_ccc1 npts n0 n1 n2 b u (fun i k => cis (w0 k * x0 i)) (fun i l => cis (w1 l * x1 i)) (fun i m => cis (w2 m * x2 i)) r2c M start j.
Proof.
  eapply (accR_same (fun b => lm3_ccc1 npts n0 n1 n2 b u x0 x1 x2 w0 w1 w2 r2c M start) (fun b => eval3_ccc1 npts n0 n1 n2 b u _ _ _ r2c M start)); [|apply eval3_ccc1_acc].
  eapply accR_ext.
  - exact (nest3_R_out npts n0 n1 n2 (fun k l m _ => conj_test (pick3 r2c k l m start) M)
      (fun k l m i => cre (u k l m) * cos (w0 k * x0 i + w1 l * x1 i + w2 m * x2 i) - cim (u k l m) * sin (w0 k * x0 i + w1 l * x1 i + w2 m * x2 i))).
  - intros i. cbv beta. destruct (Nat.ltb i npts); [|reflexivity]. apply sumR_ext; intros k _; apply sumR_ext; intros l _; apply sumR_ext; intros m _. f_equal.
    rewrite <- !cmul_assoc, <- !cis_add, <- Rplus_assoc. reflexivity.
Qed.
Lemma lm3_rcc1_same npts n0 n1 n2 b u phi x0 x1 x2 w1 w2 r2c M start j :
  lm3_rcc1 npts n0 n1 n2 b u phi x0 x1 x2 w1 w2 r2c M start j
  = eval3_rcc1 npts n0 n1 n2 b u (fun i k => phi k (x0 i)) (fun i l => cis (w1 l * x1 i)) (fun i m => cis (w2 m * x2 i)) r2c M start j.
Proof.
  eapply (accR_same (fun b => lm3_rcc1 npts n0 n1 n2 b u phi x0 x1 x2 w1 w2 r2c M start) (fun b => eval3_rcc1 npts n0 n1 n2 b u _ _ _ r2c M start)).
  - exact (nest3_R npts n0 n1 n2 (fun k l m _ => conj_test (if (r2c =? 1)%Z then (Z.of_nat l + start)%Z else (Z.of_nat m + start)%Z) M)
      (fun k l m i => phi k (x0 i) * (cre (u k l m) * cos (w1 l * x1 i + w2 m * x2 i) - cim (u k l m) * sin (w1 l * x1 i + w2 m * x2 i)))).
  - eapply accR_ext.
    + exact (nest3_R npts n0 n1 n2 (fun k l m _ => conj_test (if (r2c =? 1)%Z then (Z.of_nat l + start)%Z else (Z.of_nat m + start)%Z) M)
      (fun k l m i => phi k (x0 i) * (cre (u k l m) * cre (cmul (cis (w1 l * x1 i)) (cis (w2 m * x2 i))) - cim (u k l m) * cim (cmul (cis (w1 l * x1 i)) (cis (w2 m * x2 i)))))).
    + intros i. cbv beta. destruct (Nat.ltb i npts); [|reflexivity]. apply sumR_ext; intros k _; apply sumR_ext; intros l _; apply sumR_ext; intros m _. rewrite <- cis_add. reflexivity.
Qed.
Lemma lm3_ccr1_same npts n0 n1 n2 b u phi x0 x1 x2 w0 w1 r2c M start j :
  lm3_ccr1 npts n0 n1 n2 b u phi x0 x1 x2 w0 w1 r2c M start j
  = eval3_ccr1 npts n0 n1 n2 b u (fun i k => cis (w0 k * x0 i)) (fun i l => cis (w1 l * x1 i)) (fun i m => phi m (x2 i)) r2c M start j.
Proof.
  pose (t := fun k l (m _ : nat) => conj_test (if (r2c =? 0)%Z then (Z.of_nat k + start)%Z else (Z.of_nat l + start)%Z) M).
  pose (p := fun k l m i => phi m (x2 i) * (cre (u k l m) * cos (w0 k * x0 i + w1 l * x1 i) - cim (u k l m) * sin (w0 k * x0 i + w1 l * x1 i))).
  eapply (accR_same (fun b => lm3_ccr1 npts n0 n1 n2 b u phi x0 x1 x2 w0 w1 r2c M start) (fun b => eval3_ccr1 npts n0 n1 n2 b u _ _ _ r2c M start)
    (fun j => if Nat.ltb j npts then sumR n0 (fun k => sumR n1 (fun l => sumR n2 (fun m => dbl (t k l m j) (p k l m j)))) else 0)).
  - eapply accR_ext; [exact (nest3_R npts n2 n0 n1 (fun m k l => t k l m) (fun m k l => p k l m))|]. intros i. cbv beta. destruct (Nat.ltb i npts); [|reflexivity].
    rewrite sumR_swap. apply sumR_ext. intros k _. apply sumR_swap.
  - eapply accR_ext.
    + exact (nest3_R npts n0 n1 n2 t
      (fun k l m i => phi m (x2 i) * (cre (u k l m) * cre (cmul (cis (w0 k * x0 i)) (cis (w1 l * x1 i))) - cim (u k l m) * cim (cmul (cis (w0 k * x0 i)) (cis (w1 l * x1 i)))))).
    + intros i. cbv beta. destruct (Nat.ltb i npts); [|reflexivity]. apply sumR_ext; intros k _; apply sumR_ext; intros l _; apply sumR_ext; intros m _. rewrite <- cis_add. reflexivity.
Qed.
Lemma lm3_crc1_run npts n0 n1 n2 b u phi x0 x1 x2 w0 w1 w2 r2c M start j :
  lm3_crc1 npts n0 n1 n2 b u phi x0 x1 x2 w0 w1 w2 r2c M start j
  = eval3_crc1 npts n0 n1 n2 b u (fun i k => cis (w0 k * x0 i)) (fun i l => phi l (x1 i)) (fun i m => cis (w1 m * x2 i)) r2c M start j.
Proof.
  pose (t := fun k (l : nat) m (_ : nat) => conj_test (if (r2c =? 0)%Z then (Z.of_nat k + start)%Z else (Z.of_nat m + start)%Z) M).
  pose (p := fun k l m i => phi l (x1 i) * (cre (u k l m) * cos (w0 k * x0 i + w1 m * x2 i) - cim (u k l m) * sin (w0 k * x0 i + w1 m * x2 i))).
  eapply (accR_same (fun b => lm3_crc1 npts n0 n1 n2 b u phi x0 x1 x2 w0 w1 w2 r2c M start) (fun b => eval3_crc1 npts n0 n1 n2 b u _ _ _ r2c M start)
    (fun j => if Nat.ltb j npts then sumR n0 (fun k => sumR n1 (fun l => sumR n2 (fun m => dbl (t k l m j) (p k l m j)))) else 0)).
  - eapply accR_ext; [exact (nest3_R npts n1 n0 n2 (fun l k m => t k l m) (fun l k m => p k l m))|]. intros i. cbv beta. destruct (Nat.ltb i npts); [|reflexivity].
    apply sumR_swap.
  - eapply accR_ext.
    + exact (nest3_R npts n0 n1 n2 t
      (fun k l m i => phi l (x1 i) * (cre (u k l m) * cre (cmul (cis (w0 k * x0 i)) (cis (w1 m * x2 i))) - cim (u k l m) * cim (cmul (cis (w0 k * x0 i)) (cis (w1 m * x2 i)))))).
    + intros i. cbv beta. destruct (Nat.ltb i npts); [|reflexivity]. apply sumR_ext; intros k _; apply sumR_ext; intros l _; apply sumR_ext; intros m _. rewrite <- cis_add. reflexivity.
Qed.
