(** AxesProperties.v -- C06: solving along an axis solves every line independently. *)
From Coq Require Import Arith ZArith List Lia Bool.
From Verif Require Import Base Fld Witness SolversModel SolversSpec SolversProofs5 Dominant SolversProperties
  AxesModel AxesProofs.
Import ListNotations.
Local Open Scope nat_scope.

(** specification: the address of entry (i, j, k, ...) of a C-contiguous array, by the
    usual row-major formula (first index slowest) *)
Fixpoint row_major (dims idx : list nat) (acc : nat) : nat :=
  match dims, idx with
  | d :: dims, i :: idx => row_major dims idx (acc * d + i)
  | _, _ => acc
  end.
Definition entry {K : Fld} (dims idx : list nat) (m : nat -> K) : K := m (row_major dims idx 0).
(** an index list with its component along [axis] replaced *)
Fixpoint set_nth (axis : nat) (t : nat) (idx : list nat) : list nat :=
  match idx, axis with
  | [], _ => []
  | _ :: r, 0 => t :: r
  | i :: r, S a => i :: set_nth a t r
  end.
Definition in_range (dims idx : list nat) : Prop := Forall2 lt idx dims.

(** the line of the array m along [axis] through [idx] *)
Definition line {K : Fld} (dims : list nat) (axis : nat) (idx : list nat) (m : nat -> K) : nat -> K :=
  fun t => entry dims (set_nth axis t idx) m.

(** "every line along the axis is solved": the first n entries of every line of the
    result solve the n x n system with the same line of the input as right-hand side,
    and entries of the array beyond n along the axis keep their value *)
Definition solves_lines {K : Fld} (n : nat) (A : nat -> nat -> K) (dims : list nat) (axis : nat)
    (x b : nat -> K) : Prop :=
  forall idx, in_range dims idx ->
    solves n A (line dims axis idx x) (line dims axis idx b) /\
    (n <= nth axis idx 0 -> entry dims idx x = entry dims idx b).

Lemma ptr_of_ok (K : Fld) k n D : kind_min k <= n -> (k = KThreeDMA -> 4 <= n) ->
  implements K n (solve_of K k n D) (ptr_of K k n D).
Proof.
  destruct k; simpl; intros H H3.
  - apply diagma_ptr_ok. - apply tdma_ptr_ok; auto. - apply tdmao_ptr_ok; auto.
  - apply fdma_ptr_ok; auto. - apply twodma_ptr_ok; auto. - apply threedma_ptr_ok; auto.
  - apply pdma_ptr_ok; auto. - apply hepta_ptr_ok; auto.
Qed.

Lemma solve_of_lu (K : Fld) k n (D : nat -> nat -> K) b :
  solve_of K k n (lu_of K k n D) b = snd (call K (new_solver K k n D) None b).
Proof. destruct k; unfold call, new_solver, perform_lu; cbn [s_factored s_kind s_n s_data snd]; reflexivity. Qed.

Lemma solves_ext (K : Fld) n (A : nat -> nat -> K) x x' b b' :
  (forall i, i < n -> x i = x' i) -> (forall i, i < n -> b i = b' i) ->
  solves n A x' b' -> solves n A x b.
Proof.
  intros Hx Hb H i Hi. rewrite Hb by auto. rewrite <- (H i Hi). apply fsum_ext.
  intros j Hj. now rewrite Hx.
Qed.

Ltac inr H := repeat match type of H with in_range _ _ => unfold in_range in H end;
  repeat match goal with
  | H : Forall2 _ ?i (_ :: _) |- _ => inversion H; clear H; subst
  | H : Forall2 _ ?i [] |- _ => inversion H; clear H; subst
  end.

(** 2-dimensional arrays, la.pyx / numba Solve_axis_2D with every solver class *)
Theorem C06_axis_2D : forall (K : Fld) kind n (D : nat -> nat -> K) N0 N1 axis m,
  kind <> KThreeDMA -> kind_min kind <= n -> axis < 2 -> n <= nth axis [N0; N1] 0 ->
  leading_nonsingular n (dia_entry (kind_offsets kind) D) ->
  solves_lines n (dia_entry (kind_offsets kind) D) [N0; N1] axis
    (solve_axis_2D K N0 N1 (ptr_of K kind n (lu_of K kind n D)) axis m) m.
Proof.
  intros K kind n D N0 N1 axis m Hk Hm Ha Hn HN idx Hr. inr Hr.
  rename x into i, x0 into j.
  pose proof (ptr_of_ok K kind n (lu_of K kind n D) Hm ltac:(congruence)) as HI.
  assert (Hc : axis = 0 \/ axis = 1) by lia.
  destruct Hc as [-> | ->]; simpl in Hn;
  [ pose proof (axis2_0 K n _ _ HI N0 N1 m Hn) as A | pose proof (axis2_1 K n _ _ HI N0 N1 m Hn) as A ];
  (split;
   [ eapply solves_ext;
     [ intros t Ht; unfold line, entry; simpl;
       match goal with |- _ (?a * N1 + ?b) = _ =>
         etransitivity; [apply (A a b); lia|] end;
       rewrite (proj2 (Nat.ltb_lt t n)) by auto; rewrite solve_of_lu; reflexivity
     | intros t Ht; reflexivity
     | apply (fresh_call_solves K kind n D _ Hk Hm HN) ]
   | simpl; intros Hi; unfold entry; simpl;
     etransitivity; [apply (A i j); lia|];
     match goal with |- (if ?x <? n then _ else _) = _ =>
       destruct (Nat.ltb_spec x n); [lia | reflexivity] end ]).
Qed.
Print Assumptions C06_axis_2D.

(** 3-dimensional arrays, Solve_axis_3D *)
Theorem C06_axis_3D : forall (K : Fld) kind n (D : nat -> nat -> K) N0 N1 N2 axis m,
  kind <> KThreeDMA -> kind_min kind <= n -> axis < 3 -> n <= nth axis [N0; N1; N2] 0 ->
  leading_nonsingular n (dia_entry (kind_offsets kind) D) ->
  solves_lines n (dia_entry (kind_offsets kind) D) [N0; N1; N2] axis
    (solve_axis_3D K N0 N1 N2 (ptr_of K kind n (lu_of K kind n D)) axis m) m.
Proof.
  intros K kind n D N0 N1 N2 axis m Hk Hm Ha Hn HN idx Hr. inr Hr.
  rename x into i, x0 into j, x1 into k.
  pose proof (ptr_of_ok K kind n (lu_of K kind n D) Hm ltac:(congruence)) as HI.
  pose proof (axis3 K n _ _ N0 N1 N2 axis m HI Ha Hn) as A. cbv zeta in A.
  assert (Hc : axis = 0 \/ axis = 1 \/ axis = 2) by lia.
  destruct Hc as [-> | [-> | ->]]; simpl in Hn, A;
  (split;
   [ eapply solves_ext;
     [ intros t Ht; unfold line, entry; simpl;
       match goal with |- _ ((?a * N1 + ?b) * N2 + ?c) = _ =>
         etransitivity; [apply (A a b c); lia|] end;
       rewrite (proj2 (Nat.ltb_lt t n)) by auto; rewrite solve_of_lu; reflexivity
     | intros t Ht; reflexivity
     | apply (fresh_call_solves K kind n D _ Hk Hm HN) ]
   | simpl; intros Hi; unfold entry; simpl;
     etransitivity; [apply (A i j k); lia|];
     match goal with |- (if ?x <? n then _ else _) = _ =>
       destruct (Nat.ltb_spec x n); [lia | reflexivity] end ]).
Qed.
Print Assumptions C06_axis_3D.

(** 4-dimensional arrays, numba's Solve_axis_4D *)
Theorem C06_axis_4D : forall (K : Fld) kind n (D : nat -> nat -> K) N0 N1 N2 N3 axis m,
  kind <> KThreeDMA -> kind_min kind <= n -> axis < 4 -> n <= nth axis [N0; N1; N2; N3] 0 ->
  leading_nonsingular n (dia_entry (kind_offsets kind) D) ->
  solves_lines n (dia_entry (kind_offsets kind) D) [N0; N1; N2; N3] axis
    (solve_axis_4D K N0 N1 N2 N3 (ptr_of K kind n (lu_of K kind n D)) axis m) m.
Proof.
  intros K kind n D N0 N1 N2 N3 axis m Hk Hm Ha Hn HN idx Hr. inr Hr.
  rename x into i, x0 into j, x1 into k, x2 into l.
  pose proof (ptr_of_ok K kind n (lu_of K kind n D) Hm ltac:(congruence)) as HI.
  pose proof (axis4 K n _ _ N0 N1 N2 N3 axis m HI Ha Hn) as A. cbv zeta in A.
  assert (Hc : axis = 0 \/ axis = 1 \/ axis = 2 \/ axis = 3) by lia.
  destruct Hc as [-> | [-> | [-> | ->]]]; simpl in Hn, A;
  (split;
   [ eapply solves_ext;
     [ intros t Ht; unfold line, entry; simpl;
       match goal with |- _ (((?a * N1 + ?b) * N2 + ?c) * N3 + ?d) = _ =>
         etransitivity; [apply (A a b c d); lia|] end;
       rewrite (proj2 (Nat.ltb_lt t n)) by auto; rewrite solve_of_lu; reflexivity
     | intros t Ht; reflexivity
     | apply (fresh_call_solves K kind n D _ Hk Hm HN) ]
   | simpl; intros Hi; unfold entry; simpl;
     etransitivity; [apply (A i j k l); lia|];
     match goal with |- (if ?x <? n then _ else _) = _ =>
       destruct (Nat.ltb_spec x n); [lia | reflexivity] end ]).
Qed.
Print Assumptions C06_axis_4D.

(** the Cython functions XXX_Solve(u, data, axis) for arrays of one, two and three dimensions *)
Theorem C06_cython_solve : forall (K : Fld) kind n (D : nat -> nat -> K) dims axis m,
  kind <> KThreeDMA -> kind_min kind <= n -> axis < length dims -> length dims <= 3 -> n <= nth axis dims 0 ->
  leading_nonsingular n (dia_entry (kind_offsets kind) D) ->
  solves_lines n (dia_entry (kind_offsets kind) D) dims axis
    (cython_solve K dims (ptr_of K kind n (lu_of K kind n D)) axis m) m.
Proof.
  intros K kind n D dims axis m Hk Hm Ha Hl Hn HN.
  destruct dims as [|N0 [|N1 [|N2 [|N3 r]]]]; cbn [length] in Ha, Hl; try lia; unfold cython_solve.
  - assert (axis = 0) by lia. subst axis. cbn [nth] in Hn.
    destruct (ptr_of_ok K kind n (lu_of K kind n D) Hm ltac:(congruence) 0 1 m ltac:(lia)) as [A B].
    intros idx Hr. inr Hr. rename x into i. split.
    + eapply solves_ext; [| |apply (fresh_call_solves K kind n D m Hk Hm HN)].
      * intros t Ht. unfold line, entry. cbn [set_nth row_major Nat.mul Nat.add].
        specialize (A m ltac:(intros; f_equal; lia) t Ht). rewrite <- solve_of_lu.
        cbn [Nat.add] in A. rewrite Nat.mul_1_r in A. exact A.
      * intros t Ht. reflexivity.
    + cbn [nth]. intros Hi. unfold entry. cbn [row_major Nat.mul Nat.add]. apply B. intros t Ht. lia.
  - apply C06_axis_2D; auto.
  - apply C06_axis_3D; auto.
Qed.
Print Assumptions C06_cython_solve.

(** the hypotheses are met by a 7 x 7 tridiagonal matrix along the middle axis of a
    3 x 8 x 4 array (one entry more than the matrix size along the axis) *)
Example C06_inhabited : KTDMA <> KThreeDMA /\ kind_min KTDMA <= 7 /\ 1 < 3 /\ 7 <= nth 1 [3; 8; 4] 0 /\
  leading_nonsingular 7 (dia_entry (kind_offsets KTDMA) ex_data).
Proof.
  repeat split; try (simpl; lia); try discriminate. apply dominantb_spec. vm_compute. reflexivity.
Qed.

(** SolverGeneric1ND: one matrix per line; the line (0, 0) is left alone when the
    zero-index flag is set *)
Theorem C06_one_matrix_per_line_3D : forall (K : Fld) kind n (D : nat -> nat -> nat -> nat -> K)
    (zero : bool) N0 N1 N2 axis m,
  kind <> KThreeDMA -> kind_min kind <= n -> axis < 3 -> n <= nth axis [N0; N1; N2] 0 ->
  (forall p q, (p, q) <> (0, 0) \/ zero = false ->
     leading_nonsingular n (dia_entry (kind_offsets kind) (D p q))) ->
  forall idx, in_range [N0; N1; N2] idx ->
  let res := generic1nd_3D K N0 N1 N2 (fun p q => ptr_of K kind n (lu_of K kind n (D p q))) zero axis m in
  let p := nth (match axis with 0 => 1 | _ => 0 end) idx 0 in
  let q := nth (match axis with 2 => 1 | _ => 2 end) idx 0 in
  if zero && (p =? 0) && (q =? 0)
  then entry [N0; N1; N2] idx res = entry [N0; N1; N2] idx m
  else solves n (dia_entry (kind_offsets kind) (D p q))
         (line [N0; N1; N2] axis idx res) (line [N0; N1; N2] axis idx m).
Proof.
  intros K kind n D zero N0 N1 N2 axis m Hk Hm Ha Hn HN idx Hr. inr Hr.
  rename x into i, x0 into j, x1 into k.
  pose proof (fun p q => ptr_of_ok K kind n (lu_of K kind n (D p q)) Hm ltac:(congruence)) as HI.
  pose proof (generic3 K n _ _ zero N0 N1 N2 axis m HI Ha Hn) as A. cbv zeta in A.
  assert (Hc : axis = 0 \/ axis = 1 \/ axis = 2) by lia.
  assert (Hpq : forall p q, zero && (p =? 0) && (q =? 0) = false -> (p, q) <> (0, 0) \/ zero = false).
  { intros p q E. destruct zero; [left|auto]. intros X. injection X as -> ->. discriminate E. }
  assert (Hsw : forall p q, zero && (p =? 0) && (q =? 0) = (p =? 0) && (q =? 0) && zero).
  { intros. destruct zero; simpl; rewrite ?andb_true_r, ?andb_false_r; reflexivity. }
  destruct Hc as [-> | [-> | ->]]; simpl in Hn, A; cbv zeta; cbn [nth];
  (match goal with |- context [zero && (?p =? 0) && (?q =? 0)] =>
     specialize (Hpq p q); rewrite Hsw in *; destruct ((p =? 0) && (q =? 0) && zero) eqn:E
   end;
   [ unfold entry; simpl; etransitivity; [apply (A i j k); lia|]; rewrite E, andb_false_r; reflexivity
   | eapply solves_ext;
     [ intros t Ht; unfold line, entry; simpl;
       match goal with |- _ ((?a * N1 + ?b) * N2 + ?c) = _ =>
         etransitivity; [apply (A a b c); lia|] end;
       rewrite E, (proj2 (Nat.ltb_lt t n)) by auto; rewrite solve_of_lu; reflexivity
     | intros t Ht; reflexivity
     | apply (fresh_call_solves K kind n _ _ Hk Hm (HN _ _ (Hpq eq_refl))) ] ]).
Qed.
Print Assumptions C06_one_matrix_per_line_3D.

Theorem C06_one_matrix_per_line_2D : forall (K : Fld) kind n (D : nat -> nat -> nat -> K)
    (zero : bool) N0 N1 axis m,
  kind <> KThreeDMA -> kind_min kind <= n -> axis < 2 -> n <= nth axis [N0; N1] 0 ->
  (forall p, p <> 0 \/ zero = false -> leading_nonsingular n (dia_entry (kind_offsets kind) (D p))) ->
  forall idx, in_range [N0; N1] idx ->
  let res := generic1nd_2D K N0 N1 (fun p => ptr_of K kind n (lu_of K kind n (D p))) zero axis m in
  let p := nth (match axis with 0 => 1 | _ => 0 end) idx 0 in
  if zero && (p =? 0)
  then entry [N0; N1] idx res = entry [N0; N1] idx m
  else solves n (dia_entry (kind_offsets kind) (D p)) (line [N0; N1] axis idx res) (line [N0; N1] axis idx m) /\
       (n <= nth axis idx 0 -> entry [N0; N1] idx res = entry [N0; N1] idx m).
Proof.
  intros K kind n D zero N0 N1 axis m Hk Hm Ha Hn HN idx Hr. inr Hr. rename x into i, x0 into j.
  pose proof (fun p => ptr_of_ok K kind n (lu_of K kind n (D p)) Hm ltac:(congruence)) as HI.
  pose proof (generic2 K n _ _ zero N0 N1 axis m HI Ha Hn) as A. cbv zeta in A.
  assert (Hc : axis = 0 \/ axis = 1) by lia.
  assert (Hp : forall p, zero && (p =? 0) = false -> p <> 0 \/ zero = false).
  { intros p E. destruct zero; [left|auto]. intros ->. discriminate E. }
  assert (Hsw : forall p, zero && (p =? 0) = (p =? 0) && zero) by (intros; apply andb_comm).
  destruct Hc as [-> | ->]; simpl in Hn, A; cbv zeta; cbn [nth];
  (match goal with |- context [zero && (?p =? 0)] =>
     specialize (Hp p); rewrite Hsw in *; destruct ((p =? 0) && zero) eqn:E
   end;
   [ unfold entry; simpl; etransitivity; [apply (A i j); lia|]; rewrite E, andb_false_r; reflexivity
   | split;
     [ eapply solves_ext;
       [ intros t Ht; unfold line, entry; simpl;
         match goal with |- _ (?a * N1 + ?b) = _ => etransitivity; [apply (A a b); lia|] end;
         rewrite E, (proj2 (Nat.ltb_lt t n)) by auto; rewrite solve_of_lu; reflexivity
       | intros t Ht; reflexivity
       | apply (fresh_call_solves K kind n _ _ Hk Hm (HN _ (Hp eq_refl))) ]
     | intros Hx; unfold entry; simpl; etransitivity; [apply (A i j); lia|];
       match goal with |- (if (?x <? n) && _ then _ else _) = _ =>
         destruct (Nat.ltb_spec x n); [lia | reflexivity] end ] ]).
Qed.
Print Assumptions C06_one_matrix_per_line_2D.

(** FINDING: the Cython Solve functions have branches for 1, 2 and 3 dimensions only; a
    4-dimensional right-hand side is returned as it came *)
Theorem C06_cython_4D_refuted : exists n (D : nat -> nat -> QcFld) m,
  leading_nonsingular n (dia_entry (kind_offsets KTDMA) D) /\
  ~ solves_lines n (dia_entry (kind_offsets KTDMA) D) [2; 3; 5; 2] 2
      (cython_solve QcFld [2; 3; 5; 2] (ptr_of QcFld KTDMA n (lu_of QcFld KTDMA n D)) 2 m) m.
Proof.
  exists 5, ex_data, (fun _ => qc 1). split.
  - apply dominantb_spec. vm_compute. reflexivity.
  - intros H. destruct (H [0; 0; 0; 0]) as [H1 _].
    + repeat constructor.
    + revert H1. apply solvesb_false. vm_compute. reflexivity.
Qed.
Print Assumptions C06_cython_4D_refuted.

(** FINDING: Cython's DiagMA takes the number of equations from the array instead of the
    matrix: entries beyond the matrix size along the axis are divided by whatever follows
    the diagonal in memory *)
Theorem C06_cython_DiagMA_refuted : exists n (D : nat -> nat -> QcFld) m,
  leading_nonsingular n (dia_entry (kind_offsets KDiagMA) D) /\
  ~ solves_lines n (dia_entry (kind_offsets KDiagMA) D) [5; 2] 0
      (diagma_solve_2D QcFld 5 2 D 0 m) m.
Proof.
  exists 3, (fun _ _ => qc 2), (fun _ => qc 1). split.
  - apply dominantb_spec. vm_compute. reflexivity.
  - intros H. destruct (H [4; 0]) as [_ H2].
    + repeat constructor.
    + specialize (H2 ltac:(simpl; lia)). revert H2. apply qeqb_false. vm_compute. reflexivity.
Qed.
Print Assumptions C06_cython_DiagMA_refuted.
