(** SparseProperties.v -- C08, C09, C10, C11, C41: SparseMatrix. *)
From Coq Require Import Arith ZArith List Lia Bool QArith Qcanon Qcabs.
From Verif Require Import Base Fld Witness SolversModel SolversSpec SolversProofs5 Dominant SolversProperties
  SparseModel SparseSpec SparseProofs SparseProofs2 SparseProofs3.
Import ListNotations.
Local Open Scope nat_scope.

(** * C08: matvec computes the matrix-vector product *)
(** no error is raised, rows inside the matrix hold the product and rows of a longer
    output array are zero *)
Theorem C08_matvec : forall (K : Fld) (A : smat K) Lc Lv (v : nat -> K),
  wf K A -> sm_rows K A <= Lc -> sm_cols K A <= Lv ->
  exists c, matvec K A Lc Lv v = Some c /\
    (forall i, i < sm_rows K A ->
       c i = fsum (sm_cols K A) (fun j => fmul (mat_entry K A i j) (v j))) /\
    (forall i, sm_rows K A <= i -> c i = f0).
Proof. intros K. exact (matvec_correct K). Qed.
Print Assumptions C08_matvec.

(** a wide 3 x 5 and a tall 5 x 3 matrix with scalar and array diagonals are well formed *)
Definition ex_wide : smat QcFld := mkSmat QcFld 3 5 (qc 7)
  [((-2)%Z, Scal QcFld (qc 3)); (0%Z, Arr QcFld 3 (fun t => qc (Z.of_nat t))); (4%Z, Arr QcFld 1 (fun _ => qc 5))].
Definition ex_tall : smat QcFld := mkSmat QcFld 5 3 (qc 2)
  [((-3)%Z, Arr QcFld 2 (fun t => qc (Z.of_nat t))); (1%Z, Scal QcFld (qc 4))].
Ltac prove_wf := split; [ simpl; repeat constructor; simpl; lia | repeat constructor; simpl; try lia; reflexivity ].
Example C08_wide_wf : wf QcFld ex_wide.  Proof. prove_wf. Qed.
Example C08_tall_wf : wf QcFld ex_tall.  Proof. prove_wf. Qed.
Example C08_wide_value : exists c, matvec QcFld ex_wide 4 6 (fun j => qc (Z.of_nat j + 1)) = Some c /\
  map c [0; 1; 2; 3] = map qc [7 * (0 * 1 + 5 * 5); 7 * (1 * 2); 7 * (3 * 1 + 2 * 3); 0]%Z.
Proof. eexists. split; [reflexivity|]. vm_compute. reflexivity. Qed.

(** * C09: sparse matrix algebra is matrix algebra *)
(** the code's tolerance tests, over the rationals: abs(s) < 1e-15 (matrixbase.py
    264-271, 312-319), abs(s) < 1e-16 (289-292, 343-346), abs(s-1) < 1e-8 (397) *)
Definition below (eps : Qc) (s : QcFld) : bool :=
  match Qccompare (Qcabs s) eps with Lt => true | _ => false end.
Definition e15 : Qc := qcf 1 (10 ^ 15).
Definition e16 : Qc := qcf 1 (10 ^ 16).
Definition e8 : Qc := qcf 1 (10 ^ 8).
Definition small15 := below e15.
Definition small16 := below e16.
Definition near1 (s : QcFld) := below e8 (fsub s f1).

(** a scale factor outside the windows in which the code rounds it to 0 or 1 *)
Definition clean_scale (s : QcFld) : Prop :=
  (s = f0 \/ ~ (Qcabs s < e15)%Qc) /\ (s = f1 \/ ~ (Qcabs (fsub s f1) < e8)%Qc).

Lemma below_true eps s : below eps s = true -> (Qcabs s < eps)%Qc.
Proof. unfold below. destruct (Qccompare (Qcabs s) eps) eqn:E; try discriminate. intros _. apply Qclt_alt. exact E. Qed.
Lemma e16_15 s : (Qcabs s < e16)%Qc -> (Qcabs s < e15)%Qc.
Proof. intros H. eapply Qclt_trans; [exact H|]. reflexivity. Qed.
Lemma clean15 s : clean_scale s -> small15 s = true -> s = f0.
Proof. intros [[H|H] _] E; auto. apply below_true in E. contradiction. Qed.
Lemma clean16 s : clean_scale s -> small16 s = true -> s = f0.
Proof. intros [[H|H] _] E; auto. apply below_true, e16_15 in E. contradiction. Qed.
Lemma clean1 s : clean_scale s -> near1 s = true -> s = f1.
Proof. intros [_ [H|H]] E; auto. apply below_true in E. contradiction. Qed.

Definition same_shape (A D : smat QcFld) : Prop :=
  sm_rows QcFld D = sm_rows QcFld A /\ sm_cols QcFld D = sm_cols QcFld A.
(** X has the shape of A and, at every position, the entry [e i j] *)
Definition has_entries (X A : smat QcFld) (e : nat -> nat -> QcFld) : Prop :=
  wf QcFld X /\ sm_rows QcFld X = sm_rows QcFld A /\ sm_cols QcFld X = sm_cols QcFld A /\
  forall i j, mat_entry QcFld X i j = e i j.

(** A + D and A - D: entrywise; D keeps its value (although its storage may be rescaled) *)
Theorem C09_add : forall A D : smat QcFld, wf QcFld A -> wf QcFld D -> same_shape A D ->
  0 < sm_rows QcFld A -> 0 < sm_cols QcFld A ->
  clean_scale (sm_scale QcFld A) -> clean_scale (sm_scale QcFld D) ->
  has_entries (fst (add QcFld small15 near1 A D)) A
    (fun i j => fadd (mat_entry QcFld A i j) (mat_entry QcFld D i j)) /\
  has_entries (snd (add QcFld small15 near1 A D)) D (mat_entry QcFld D).
Proof.
  intros A D HA HD [Hr Hc] Hn Hm CA CD.
  destruct (add_ok QcFld small15 near1 A D) as (R1 & R2 & R3 & R4 & R5 & R6 & R7 & R8);
    auto using clean15, clean1. unfold has_entries. tauto.
Qed.
Print Assumptions C09_add.
Theorem C09_sub : forall A D : smat QcFld, wf QcFld A -> wf QcFld D -> same_shape A D ->
  0 < sm_rows QcFld A -> 0 < sm_cols QcFld A ->
  clean_scale (sm_scale QcFld A) -> clean_scale (sm_scale QcFld D) ->
  has_entries (fst (sub QcFld small15 near1 A D)) A
    (fun i j => fsub (mat_entry QcFld A i j) (mat_entry QcFld D i j)) /\
  has_entries (snd (sub QcFld small15 near1 A D)) D (mat_entry QcFld D).
Proof.
  intros A D HA HD [Hr Hc] Hn Hm CA CD.
  destruct (sub_ok QcFld small15 near1 A D) as (R1 & R2 & R3 & R4 & R5 & R6 & R7 & R8);
    auto using clean15, clean1. unfold has_entries. tauto.
Qed.
Print Assumptions C09_sub.
(** A += D and A -= D *)
Theorem C09_iadd : forall A D : smat QcFld, wf QcFld A -> wf QcFld D -> same_shape A D ->
  clean_scale (sm_scale QcFld A) -> clean_scale (sm_scale QcFld D) ->
  has_entries (fst (iadd QcFld small16 near1 A D)) A
    (fun i j => fadd (mat_entry QcFld A i j) (mat_entry QcFld D i j)) /\
  has_entries (snd (iadd QcFld small16 near1 A D)) D (mat_entry QcFld D).
Proof.
  intros A D HA HD [Hr Hc] CA CD.
  destruct (iadd_ok QcFld small16 near1 A D) as (R1 & R2 & R3 & R4 & R5 & R6 & R7 & R8);
    auto using clean16, clean1. unfold has_entries. tauto.
Qed.
Print Assumptions C09_iadd.
Theorem C09_isub : forall A D : smat QcFld, wf QcFld A -> wf QcFld D -> same_shape A D ->
  clean_scale (sm_scale QcFld A) -> clean_scale (sm_scale QcFld D) ->
  has_entries (fst (isub QcFld small16 near1 A D)) A
    (fun i j => fsub (mat_entry QcFld A i j) (mat_entry QcFld D i j)) /\
  has_entries (snd (isub QcFld small16 near1 A D)) D (mat_entry QcFld D).
Proof.
  intros A D HA HD [Hr Hc] CA CD.
  destruct (isub_ok QcFld small16 near1 A D) as (R1 & R2 & R3 & R4 & R5 & R6 & R7 & R8);
    auto using clean16, clean1. unfold has_entries. tauto.
Qed.
Print Assumptions C09_isub.
(** A += A doubles A *)
Theorem C09_iadd_self : forall A : smat QcFld, wf QcFld A -> clean_scale (sm_scale QcFld A) ->
  forall i j, mat_entry QcFld (iadd_self QcFld small16 near1 A) i j
              = fadd (mat_entry QcFld A i j) (mat_entry QcFld A i j).
Proof. intros A HA C. apply iadd_self_ok; auto using clean16, clean1. Qed.
Print Assumptions C09_iadd_self.
(** scalar multiples, quotients, negation and copies, over every field *)
Theorem C09_scalar : forall (K : Fld) (A : smat K) (y : K) i j,
  mat_entry K (smul K A y) i j = fmul (mat_entry K A i j) y /\
  mat_entry K (neg K A) i j = fopp (mat_entry K A i j) /\
  mat_entry K (copy K A) i j = mat_entry K A i j /\
  (y <> f0 -> fmul (mat_entry K (sdiv K A y) i j) y = mat_entry K A i j).
Proof.
  intros K A y i j. rewrite !mat_entry_oget. unfold smul, neg, copy, sdiv. cbn [sm_items sm_scale].
  assert (Kf := flaws K). assert (Kr := fringlaws K).
  generalize (oget K (lookup K (sm_items K A) (Z.of_nat j - Z.of_nat i)) (Nat.min i j)) as x.
  generalize (sm_scale K A) as s. intros s x. repeat split.
  - apply (Rmul_assoc Kr).
  - rewrite (Rmul_assoc Kr). generalize (fmul x s) as w. intros w. apply fmul_opp1.
  - intros Hy. apply fdiv_assoc_cancel; auto.
Qed.
Print Assumptions C09_scalar.

Example C09_inhabited :
  let A := mkSmat QcFld 4 4 (qcf 3 2) [((-2)%Z, Scal QcFld (qc 1)); (0%Z, Arr QcFld 4 (fun t => qc (Z.of_nat t)))] in
  let D := mkSmat QcFld 4 4 (qc (-2)) [(0%Z, Scal QcFld (qc 5)); (2%Z, Arr QcFld 2 (fun t => qc 1))] in
  wf QcFld A /\ wf QcFld D /\ same_shape A D /\ clean_scale (sm_scale QcFld A) /\ clean_scale (sm_scale QcFld D).
Proof.
  cbv zeta. split; [prove_wf|]. split; [prove_wf|]. split; [split; reflexivity|].
  split; (split; right; intros H; vm_compute in H; discriminate).
Qed.

(** * C10: equal matrices represent the same operator -- does not hold *)
Definition qis0 (x : QcFld) : bool := qeqb x (qc 0).
(** norm(d - a) < 1e-8, i.e. the sum of squared differences is below 1e-16 *)
Definition qclose (d a : list QcFld) : bool :=
  below e16 (fold_right (fun p acc => fadd (fmul (fsub (fst p) (snd p)) (fsub (fst p) (snd p))) acc) f0 (combine d a)).

(** the scale is not compared *)
Theorem C10_scale_refuted : forall fhash, exists A B : smat QcFld,
  wf QcFld A /\ wf QcFld B /\ sm_eq QcFld qis0 fhash qclose A B = true /\ ~ same_operator QcFld A B.
Proof.
  intros fhash.
  exists (mkSmat QcFld 2 2 (qc 1) [(0%Z, Scal QcFld (qc 1))]), (mkSmat QcFld 2 2 (qc 5) [(0%Z, Scal QcFld (qc 1))]).
  split; [prove_wf|]. split; [prove_wf|]. split.
  - unfold sm_eq, hash_keys. cbn [sm_rows sm_cols sm_items map fst Nat.eqb andb]. rewrite Z.eqb_refl. vm_compute. reflexivity.
  - intros (_ & _ & H). specialize (H 0 0 ltac:(simpl; lia) ltac:(simpl; lia)). revert H. apply qeqb_false. vm_compute. reflexivity.
Qed.
Print Assumptions C10_scale_refuted.
(** only the non-zero entries are compared, not where they stand *)
Theorem C10_zeros_refuted : forall fhash, exists A B : smat QcFld,
  wf QcFld A /\ wf QcFld B /\ sm_scale QcFld A = sm_scale QcFld B /\
  sm_eq QcFld qis0 fhash qclose A B = true /\ ~ same_operator QcFld A B.
Proof.
  intros fhash.
  exists (mkSmat QcFld 2 2 (qc 1) [(0%Z, Arr QcFld 2 (fun t => qc (Z.of_nat t)))]),
         (mkSmat QcFld 2 2 (qc 1) [(0%Z, Arr QcFld 2 (fun t => qc (1 - Z.of_nat t)))]).
  split; [prove_wf|]. split; [prove_wf|]. split; [reflexivity|]. split.
  - unfold sm_eq, hash_keys. cbn [sm_rows sm_cols sm_items map fst Nat.eqb andb]. rewrite Z.eqb_refl. vm_compute. reflexivity.
  - intros (_ & _ & H). specialize (H 0 0 ltac:(simpl; lia) ltac:(simpl; lia)). revert H. apply qeqb_false. vm_compute. reflexivity.
Qed.
Print Assumptions C10_zeros_refuted.
(** key sets are compared by hash, and hash(-1) = hash(-2) *)
Theorem C10_hash_refuted : forall fhash, exists A B : smat QcFld,
  wf QcFld A /\ wf QcFld B /\ sm_scale QcFld A = sm_scale QcFld B /\
  (forall i j, unscaled_entry QcFld A i j <> f0 -> unscaled_entry QcFld A i j = f1) /\
  sm_eq QcFld qis0 fhash qclose A B = true /\ ~ same_operator QcFld A B.
Proof.
  intros fhash.
  exists (mkSmat QcFld 5 2 (qc 1) [((-1)%Z, Scal QcFld (qc 1))]), (mkSmat QcFld 5 2 (qc 1) [((-2)%Z, Scal QcFld (qc 1))]).
  split; [prove_wf|]. split; [prove_wf|]. split; [reflexivity|]. split; [|split].
  - intros i j. unfold unscaled_entry. cbn [sm_items items_entry].
    destruct (Z.eqb (-1) (Z.of_nat j - Z.of_nat i)); [reflexivity | intros H; exfalso; apply H; reflexivity].
  - unfold sm_eq, hash_keys. cbn [sm_rows sm_cols sm_items map fst Nat.eqb andb]. change (pyhash (-1)) with (pyhash (-2)).
    rewrite Z.eqb_refl. vm_compute. reflexivity.
  - intros (_ & _ & H). specialize (H 1 0 ltac:(simpl; lia) ltac:(simpl; lia)). revert H. apply qeqb_false. vm_compute. reflexivity.
Qed.
Print Assumptions C10_hash_refuted.
(** what == does guarantee: with equal scales, equal key sets and no stored zeros inside
    the matrix, an exact comparison of the data implies equal operators *)
Theorem C10_partial : forall (K : Fld) (is0 : K -> bool) fhash close (A B : smat K),
  (forall x, is0 x = true <-> x = f0) ->
  (forall d a, length d = length a -> close d a = true -> d = a) ->
  sm_eq K is0 fhash close A B = true ->
  sm_scale K A = sm_scale K B ->
  (forall o, In o (map fst (sm_items K A)) <-> In o (map fst (sm_items K B))) ->
  (forall C, C = A \/ C = B -> forall i j, i < sm_rows K C -> j < sm_cols K C ->
     In (Z.of_nat j - Z.of_nat i)%Z (map fst (sm_items K C)) -> unscaled_entry K C i j <> f0) ->
  same_operator K A B.
Proof.
  intros K is0 fhash close A B H0 Hcl E Hs Hk Hz. unfold sm_eq in E.
  rewrite !andb_true_iff in E. destruct E as [[[[E1 E2] _] E4] E5].
  apply Nat.eqb_eq in E1, E2, E4. split; [auto|]. split; [auto|].
  intros i j Hi Hj. rewrite !mat_entry_oget.
  rewrite <- !items_entry_lookup. fold (unscaled_entry K A i j). fold (unscaled_entry K B i j).
  rewrite (csr_equal K is0 H0 A B E1 E2 Hk Hz (Hcl _ _ E4 E5) i j Hi Hj), Hs. reflexivity.
Qed.
Print Assumptions C10_partial.

(** * C11: the solver picked for a matrix fits its pattern *)
Theorem C11_offsets : forall (K : Fld) is0 deq (A : smat K) k,
  get_solver K is0 deq A = Some k ->
  forall o, In o (map fst (sm_items K A)) <-> In o (kind_offsets k).
Proof. intros K is0 deq A k H o. rewrite <- (get_solver_keys K is0 deq A k H). symmetry. apply sort_In. Qed.
Print Assumptions C11_offsets.
(** hence A.solve(b) solves A u = b, scale included *)
Theorem C11_solve : forall (K : Fld) is0 deq (A : smat K) k b,
  wf K A -> sm_cols K A = sm_rows K A -> get_solver K is0 deq A = Some k -> k <> KThreeDMA ->
  leading_nonsingular (sm_rows K A) (mat_entry K A) ->
  exists u, snd (mo_step K is0 deq (fun _ => false) (fun _ => false) (mkMobj K A None) (OpSolve K b)) = Some u /\
    solves (sm_rows K A) (mat_entry K A) u b.
Proof.
  intros K is0 deq A k b Hw Hsq Hg Hk HN. unfold mo_step. cbn [mo_solver mo_mat]. rewrite Hg.
  pose proof (solver_solves K is0 deq A k b Hw Hsq Hg Hk HN) as H.
  destruct (call K (new_solver K k (sm_rows K A) (dia_data K A)) None b) as [s' u]. simpl in *. eauto.
Qed.
Print Assumptions C11_solve.
(** every pattern that has a dedicated class gets it *)
Theorem C11_complete : forall (K : Fld) is0 deq (A : smat K) k,
  is0 (sm_scale K A) = false -> sort_keys (map fst (sm_items K A)) = kind_offsets k ->
  (k = KTDMA_O -> issymmetric K deq A = true) ->
  get_solver K is0 deq A = Some k.
Proof.
  intros K is0 deq A k Hs E Hsym. unfold get_solver. rewrite Hs.
  assert (L : length (sm_items K A) = length (kind_offsets k)).
  { rewrite <- E, <- (map_length fst (sm_items K A)). symmetry. apply Permutation.Permutation_length, sort_perm. }
  rewrite E, L. destruct k; simpl; auto. rewrite Hsym by auto. reflexivity.
Qed.
Print Assumptions C11_complete.

Definition ex_A : smat QcFld := mkSmat QcFld 6 6 (qcf 1 2)
  [((-2)%Z, Scal QcFld (qc 1)); (0%Z, Arr QcFld 6 (fun t => qc (5 + Z.of_nat t))); (2%Z, Arr QcFld 4 (fun t => qc 2))].
Example C11_inhabited : wf QcFld ex_A /\ get_solver QcFld qis0 (fun _ _ => true) ex_A = Some KTDMA /\
  leading_nonsingular 6 (mat_entry QcFld ex_A).
Proof.
  split; [prove_wf|]. split; [reflexivity|]. apply dominantb_spec. vm_compute. reflexivity.
Qed.

(** * C41: solve uses the current matrix whatever happened before *)
(** FINDING: the solver built at the first solve is kept; A *= 2 or A += B afterwards has
    no effect on later solves *)
Theorem C41_stale_after_imul_refuted : exists (A : smat QcFld) (b : nat -> QcFld) o u,
  wf QcFld A /\
  o = mo_run QcFld qis0 (fun _ _ => true) small16 near1 (mkMobj QcFld A None) [OpSolve QcFld b; OpImul QcFld (qc 2)] /\
  leading_nonsingular (sm_rows QcFld (mo_mat QcFld o)) (mat_entry QcFld (mo_mat QcFld o)) /\
  snd (mo_step QcFld qis0 (fun _ _ => true) small16 near1 o (OpSolve QcFld b)) = Some u /\
  ~ solves (sm_rows QcFld (mo_mat QcFld o)) (mat_entry QcFld (mo_mat QcFld o)) u b.
Proof.
  exists ex_A, (fun _ => qc 1). eexists. eexists. split; [prove_wf|]. split; [reflexivity|].
  split; [|split; [reflexivity|]].
  - apply dominantb_spec. vm_compute. reflexivity.
  - apply solvesb_false. vm_compute. reflexivity.
Qed.
Print Assumptions C41_stale_after_imul_refuted.
Theorem C41_stale_after_iadd_refuted : exists (A D : smat QcFld) (b : nat -> QcFld) o u,
  wf QcFld A /\ wf QcFld D /\
  o = mo_run QcFld qis0 (fun _ _ => true) small16 near1 (mkMobj QcFld A None) [OpSolve QcFld b; OpIadd QcFld D] /\
  leading_nonsingular (sm_rows QcFld (mo_mat QcFld o)) (mat_entry QcFld (mo_mat QcFld o)) /\
  snd (mo_step QcFld qis0 (fun _ _ => true) small16 near1 o (OpSolve QcFld b)) = Some u /\
  ~ solves (sm_rows QcFld (mo_mat QcFld o)) (mat_entry QcFld (mo_mat QcFld o)) u b.
Proof.
  exists ex_A, (mkSmat QcFld 6 6 (qc 3) [(0%Z, Scal QcFld (qc 1))]), (fun _ => qc 1).
  eexists. eexists. split; [prove_wf|]. split; [prove_wf|]. split; [reflexivity|].
  split; [|split; [reflexivity|]].
  - apply dominantb_spec. vm_compute. reflexivity.
  - apply solvesb_false. vm_compute. reflexivity.
Qed.
Print Assumptions C41_stale_after_iadd_refuted.
(** histories that only modify the matrix before the first solve, and only solve after it,
    are safe *)
Theorem C41_partial : forall (K : Fld) is0 deq s16 n1 (A : smat K) k (bs : list (nat -> K)) b,
  wf K A -> sm_cols K A = sm_rows K A -> get_solver K is0 deq A = Some k -> k <> KThreeDMA ->
  leading_nonsingular (sm_rows K A) (mat_entry K A) ->
  exists u, snd (mo_step K is0 deq s16 n1 (mo_run K is0 deq s16 n1 (mkMobj K A None) (map (OpSolve K) bs)) (OpSolve K b)) = Some u /\
    solves (sm_rows K A) (mat_entry K A) u b.
Proof. exact cached_solves. Qed.
Print Assumptions C41_partial.
