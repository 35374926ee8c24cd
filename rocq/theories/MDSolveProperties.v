(** MDSolveProperties.v -- C64: the solver for tensor product systems with one non-diagonal
    axis solves the system on every rank, for every wavenumber and every history of calls. *)
From Coq Require Import Arith ZArith List Lia Bool QArith Qcanon Reals Lra ClassicalEpsilon.
From Verif Require Import Base Fld Witness SolversModel SolversSpec SolversProofs5 Dominant SolversProperties
  SparseModel SparseSpec SparseProperties TPSpec Complex
  MDSolveModel MDSolveSpec MDSolveProofs MDSolveProofs2 MDSolveProofs3.
Import ListNotations.
Local Open Scope nat_scope.

(** ** md_row is the row of the tensor product operator *)
Lemma kron_identity (K : Fld) (I : smat K) ms i idx (v : list nat -> K) :
  is_identity K I -> i < sm_cols K I ->
  kron K (I :: ms) (i :: idx) v = kron K ms idx (fun r => v (i :: r)).
Proof.
  intros HI Hi. cbn [kron].
  transitivity (fsum (sm_cols K I) (fun j => if j =? i then kron K ms idx (fun r => v (j :: r)) else f0)).
  - apply fsum_ext. intros j Hj. rewrite HI by auto. rewrite (Nat.eqb_sym i j). destruct (j =? i).
    + apply (Ring_theory.Rmul_1_l (fringlaws K)).
    + generalize (kron K ms idx (fun r => v (j :: r))). intros x. exact (fmul_0_l K x).
  - rewrite fsum_delta. rewrite (proj2 (Nat.ltb_lt i _) Hi). reflexivity.
Qed.

Theorem C64_operator : forall (K : Fld) ax (A I J : smat K) i j r (v : list nat -> K) (u : nat -> nat -> nat -> K),
  ax < 3 -> is_identity K I -> is_identity K J -> i < sm_cols K I -> j < sm_cols K J ->
  (forall c, v (md_index ax i j c) = u i j c) ->
  kron K (md_factors ax A I J) (md_index ax i j r) v
  = fsum (sm_cols K A) (fun c => fmul (mat_entry K A r c) (u i j c)).
Proof.
  intros K ax A I J i j r v u Ha HI HJ Hi Hj Hv.
  destruct ax as [|[|ax]]; cbn [md_index md_factors] in *.
  - cbn [kron]. apply fsum_ext. intros c Hc. f_equal.
    change (kron K [I; J] [i; j] (fun r0 => v (c :: r0)) = u i j c).
    rewrite kron_identity by auto. rewrite kron_identity by auto. cbn [kron]. apply Hv.
  - rewrite kron_identity by auto. cbn [kron]. apply fsum_ext. intros c Hc. f_equal.
    change (kron K [J] [j] (fun r0 => v (i :: c :: r0)) = u i j c).
    rewrite kron_identity by auto. cbn [kron]. apply Hv.
  - rewrite kron_identity by auto. rewrite kron_identity by auto. cbn [kron]. apply fsum_ext. intros c Hc. f_equal. apply Hv.
Qed.
Print Assumptions C64_operator.

(** ** every unconstrained call of one object solves the system; also every call with a
    constraint on a rank all of whose diagonal axes start after wavenumber 0 *)
Theorem C64_solves : forall (K : Fld) (small16 near1 is0 : K -> bool) deq lu_solve re
    N0 N1 n rank0 st0 st1 fast (ts : list (tterm K)),
  (forall x, is0 x = true <-> x = f0) -> lu_contract K lu_solve ->
  0 < N0 -> 0 < N1 -> terms_ok K small16 near1 N0 N1 n ts ->
  let kind := line_kind K small16 near1 is0 deq ts in
  (forall i j, i < N0 -> j < N1 -> line_regular K n (kind i j) (md_mat K ts i j)) ->
  (fast = true -> kind (N0 - 1) (N1 - 1) <> None -> homogeneous K re N0 N1 rank0 ts kind) ->
  forall h c b,
    Forall (fun cb => fst cb = None \/ st0 * st1 <> 0) h -> (c = None \/ st0 * st1 <> 0) ->
    exists u, g1_calls K is0 lu_solve re N0 N1 rank0 st0 st1 fast
                (g1_new K small16 near1 is0 deq ts) h c b = Some u /\
      md_solves K N0 N1 n ts u b.
Proof.
  intros. eapply unconstrained_history; eauto. intros F L. destruct (H5 F L) as (A1 & A2 & A3).
  split; auto. split; auto. intros i j Hi Hj H0'. apply A3; auto. intros (-> & -> & ->). discriminate.
Qed.
Print Assumptions C64_solves.

(** ** constrained calls on rank zero: the mode is pinned and everything else is solved *)
Theorem C64_pinned : forall (K : Fld) (small16 near1 is0 : K -> bool) deq lu_solve re
    N0 N1 n st0 st1 fast (ts : list (tterm K)) k0,
  (forall x, is0 x = true <-> x = f0) -> lu_contract K lu_solve ->
  0 < N0 -> 0 < N1 -> 0 < n -> terms_ok K small16 near1 N0 N1 n ts ->
  let kind := line_kind K small16 near1 is0 deq ts in
  st0 * st1 = 0 -> kind 0 0 = Some k0 ->
  (k0 = KDiagMA \/ k0 = KTDMA \/ k0 = KFDMA \/ k0 = KTwoDMA) ->
  leading_nonsingular n (ident_row0 (md_mat K ts 0 0)) ->
  (forall i j, i < N0 -> j < N1 -> (i, j) <> (0, 0) -> line_regular K n (kind i j) (md_mat K ts i j)) ->
  (fast = true -> kind (N0 - 1) (N1 - 1) <> None -> homogeneous K re N0 N1 true ts kind) ->
  forall (h : list (K * (nat -> nat -> nat -> K))) v b,
    exists u, g1_calls K is0 lu_solve re N0 N1 true st0 st1 fast
                (g1_new K small16 near1 is0 deq ts) (map (fun cb => (Some (fst cb), snd cb)) h) (Some v) b = Some u /\
      md_solves_pinned K N0 N1 n ts v u b.
Proof.
  intros. eapply pinned_history; eauto. intros F L. destruct (H10 F L) as (A1 & A2 & A3).
  split; auto. split; auto. intros i j Hi Hj H0'. apply A3; auto. intros (_ & -> & ->). discriminate.
Qed.
Print Assumptions C64_pinned.

(** ** the contract of SuperLU can be met, over every field *)
Theorem C64_lu_contract_inhabited : forall K : Fld, exists lu_solve, lu_contract K lu_solve.
Proof.
  intros K.
  set (inv := fun n (A : nat -> nat -> K) =>
    match excluded_middle_informative (regular K n A) with
    | left H => proj1_sig (constructive_indefinite_description _ H)
    | right _ => fun _ _ => f0
    end).
  exists (fun n A b i => if i <? n then fsum n (fun k => fmul (inv n A i k) (b k)) else b i).
  intros n A b. split.
  - intros HR i Hi.
    assert (HI : forall i j, i < n -> j < n -> fsum n (fun k => fmul (A i k) (inv n A k j)) = if i =? j then f1 else f0).
    { unfold inv. destruct (excluded_middle_informative (regular K n A)) as [H|]; [|contradiction].
      destruct (constructive_indefinite_description _ H) as [B HB]. cbn [proj1_sig]. intros i' j' Hi' Hj'. apply HB; auto. }
    transitivity (fsum n (fun j => fsum n (fun k => fmul (fmul (A i j) (inv n A j k)) (b k)))).
    + apply fsum_ext. intros j Hj. rewrite (proj2 (Nat.ltb_lt j n) Hj). rewrite <- fsum_scal.
      apply fsum_ext. intros k Hk. apply (Ring_theory.Rmul_assoc (fringlaws K)).
    + rewrite fsum_swap. transitivity (fsum n (fun k => if k =? i then b k else f0)).
      * apply fsum_ext. intros k Hk. rewrite fsum_scal_r, HI by auto. rewrite (Nat.eqb_sym i k).
        destruct (k =? i); [apply (Ring_theory.Rmul_1_l (fringlaws K)) | exact (fmul_0_l K (b k))].
      * rewrite fsum_delta. rewrite (proj2 (Nat.ltb_lt i n) Hi). reflexivity.
  - intros r Hr. rewrite (proj2 (Nat.ltb_ge r n) Hr). reflexivity.
Qed.
Print Assumptions C64_lu_contract_inhabited.

(** ** examples: a Helmholtz-like system, diagonal + (c0 + c1 (i + j)) * tridiagonal *)
Definition qis0' (x : QcFld) : bool := qeqb x (qc 0).
Lemma qis0'_spec x : qis0' x = true <-> x = f0.
Proof.
  unfold qis0'. split.
  - intros H. apply qeqb_true in H. exact H.
  - intros ->. vm_compute. reflexivity.
Qed.
Definition qdeq (_ _ : dval QcFld) : bool := true.
Definition qlu (n : nat) (A : nat -> nat -> QcFld) (b : nat -> QcFld) : nat -> QcFld := b.
Definition md_diag (n : nat) : smat QcFld := mkSmat QcFld n n (qc 2) [(0%Z, Arr QcFld n (fun t => qc (11 + Z.of_nat t)))].
Definition md_tri (n : nat) : smat QcFld := mkSmat QcFld n n (qc 1)
  [((-2)%Z, Scal QcFld (qc 1)); (0%Z, Scal QcFld (qc 4)); (2%Z, Scal QcFld (qc 1))].
Definition md_terms (n : nat) (c0 c1 : Z) : list (tterm QcFld) :=
  [ mkTerm QcFld (fun _ _ => qc 1) (md_diag n);
    mkTerm QcFld (fun i j => qc (c0 + c1 * Z.of_nat (i + j))) (md_tri n) ].

(** scales that pass the tolerance tests, checked on an N0 x N1 block *)
Definition cleanb (s : QcFld) : bool :=
  implb (SparseProperties.small16 s) (qeqb s (qc 0)) && implb (SparseProperties.near1 s) (qeqb s (qc 1)).
Definition all2 (N0 N1 : nat) (p : nat -> nat -> bool) : bool :=
  forallb (fun q => p (fst q) (snd q)) (list_prod (seq 0 N0) (seq 0 N1)).
Lemma all2_spec N0 N1 p : all2 N0 N1 p = true -> forall i j, i < N0 -> j < N1 -> p i j = true.
Proof.
  intros H i j Hi Hj. unfold all2 in H. rewrite forallb_forall in H. apply (H (i, j)).
  apply in_prod; apply in_seq; lia.
Qed.
Lemma cleanb_spec s : cleanb s = true ->
  (SparseProperties.small16 s = true -> s = f0) /\ (SparseProperties.near1 s = true -> s = f1).
Proof.
  unfold cleanb. rewrite andb_true_iff. intros [H1 H2]. split; intros E; rewrite E in *; cbn in *; apply qeqb_true; auto.
Qed.
Lemma md_terms_ok n c0 c1 N0 N1 : 2 < n ->
  all2 N0 N1 (fun i j => cleanb (fmul (qc 1) (qc (c0 + c1 * Z.of_nat (i + j))))) = true ->
  terms_ok QcFld SparseProperties.small16 SparseProperties.near1 N0 N1 n (md_terms n c0 c1).
Proof.
  intros Hn H. split; [discriminate|]. split; [vm_compute; reflexivity|].
  intros t [<-|[<-|[]]]; cbn [t_mat t_scale].
  - split; [split; [simpl; repeat constructor; simpl; lia | repeat constructor; simpl; try lia; unfold diag_len; simpl; lia]|].
    split; [reflexivity|]. split; [reflexivity|]. intros i j _ _. apply cleanb_spec. vm_compute. reflexivity.
  - split; [split; [simpl; repeat constructor; simpl; lia | repeat constructor; simpl; lia]|].
    split; [reflexivity|]. split; [reflexivity|]. intros i j Hi Hj. apply cleanb_spec.
    apply (all2_spec _ _ _ H); auto.
Qed.
Definition lines_ok (n N0 N1 : nat) (ts : list (tterm QcFld)) : bool :=
  all2 N0 N1 (fun i j => dominantb n (md_mat QcFld ts i j)).
Definition kindq := line_kind QcFld SparseProperties.small16 SparseProperties.near1 qis0' qdeq.
Lemma re_id : real_part QcFld (fun x => x) /\ forall N0 N1 ts, terms_real QcFld (fun x => x) N0 N1 ts.
Proof. repeat split; auto. Qed.

(** a 3 x 2 block of wavenumbers, 7 unknowns per line; line (0, 0) is a DiagMA line (its
    second scale is 0), all others are TDMA lines: the hypotheses of C64_solves hold for the
    fast path on rank zero *)
Example C64_solves_inhabited : let ts := md_terms 7 0 1 in
  terms_ok QcFld SparseProperties.small16 SparseProperties.near1 3 2 7 ts /\
  (forall i j, i < 3 -> j < 2 -> line_regular QcFld 7 (kindq ts i j) (md_mat QcFld ts i j)) /\
  kindq ts 0 0 = Some KDiagMA /\ kindq ts 2 1 = Some KTDMA /\
  homogeneous QcFld (fun x => x) 3 2 true ts (kindq ts).
Proof.
  cbv zeta. split; [apply md_terms_ok; [lia|vm_compute; reflexivity]|]. split.
  - intros i j Hi Hj. assert (E := all2_spec 3 2 (fun i j => dominantb 7 (md_mat QcFld (md_terms 7 0 1) i j)) ltac:(vm_compute; reflexivity) i j Hi Hj).
    apply dominantb_spec in E.
    assert (Hk : exists k, kindq (md_terms 7 0 1) i j = Some k /\ k <> KThreeDMA).
    { destruct i as [|[|[|]]]; try lia; destruct j as [|[|]]; try lia;
        (eexists; split; [vm_compute; reflexivity|discriminate]). }
    destruct Hk as (k & Ek & Hk). rewrite Ek. split; auto.
  - split; [vm_compute; reflexivity|]. split; [vm_compute; reflexivity|].
    split; [apply re_id|]. split; [apply re_id|]. intros i j Hi Hj H.
    destruct i as [|[|[|]]]; try lia; destruct j as [|[|]]; try lia; try (vm_compute; reflexivity).
Qed.

(** the same block with line (0, 0) a TDMA line: the hypotheses of C64_pinned *)
Example C64_pinned_inhabited : let ts := md_terms 7 2 1 in
  kindq ts 0 0 = Some KTDMA /\ leading_nonsingular 7 (ident_row0 (md_mat QcFld ts 0 0)) /\
  (forall i j, i < 3 -> j < 2 -> kindq ts i j = kindq ts 2 1 /\ leading_nonsingular 7 (md_mat QcFld ts i j)).
Proof.
  cbv zeta. split; [vm_compute; reflexivity|]. split; [apply dominantb_spec; vm_compute; reflexivity|].
  intros i j Hi Hj. split.
  - destruct i as [|[|[|]]]; try lia; destruct j as [|[|]]; try lia; vm_compute; reflexivity.
  - apply dominantb_spec.
    apply (all2_spec 3 2 (fun i j => dominantb 7 (md_mat QcFld (md_terms 7 2 1) i j))); [vm_compute; reflexivity | lia | lia].
Qed.

(** a line for the generic solver *)
Example C64_generic_inhabited :
  let A := mkSmat QcFld 2 2 (qc 1) [(0%Z, Scal QcFld (qc 2)); (1%Z, Scal QcFld (qc 1))] in
  let ts := [mkTerm QcFld (fun _ _ => qc 1) A] in
  kindq ts 0 0 = None /\ line_regular QcFld 2 (kindq ts 0 0) (md_mat QcFld ts 0 0).
Proof.
  cbv zeta. split; [vm_compute; reflexivity|]. 
  replace (kindq _ 0 0) with (@None solver_kind) by (vm_compute; reflexivity). split; [lia|].
  exists (fun i j => if i =? j then qcf 1 2 else if i <? j then qcf (-1) 4 else qc 0).
  intros i j Hi Hj. destruct i as [|[|]]; try lia; destruct j as [|[|]]; try lia; split; apply qeqb_true; vm_compute; reflexivity.
Qed.

(** ** refutations *)
(** complex right hand sides with real coefficients: the real part of a complex number *)
Definition Cre (z : CFld) : CFld := (fst z, 0%R).
Example C64_real_part : real_part CFld Cre.
Proof.
  assert (E : forall z : Cx, Cre z = z -> snd z = 0%R) by (intros [a c] H; injection H; auto).
  split; [reflexivity|]. split; [reflexivity|]. intros x y Hx Hy. apply E in Hx, Hy.
  destruct x as [a a'], y as [c c']. cbn [snd] in Hx, Hy. subst.
  repeat split; apply Ceq; simpl; unfold Rdiv; try rewrite Ropp_0; try ring.
Qed.

Notation qcall := (g1_calls QcFld qis0' qlu (fun x : QcFld => x)).
Notation qnew := (g1_new QcFld SparseProperties.small16 SparseProperties.near1 qis0' qdeq).
Definition got (o : option (nat -> nat -> nat -> QcFld)) : nat -> nat -> nat -> QcFld :=
  match o with Some u => u | None => fun _ _ _ => qc 0 end.
Lemma got_some o : match o with Some _ => true | None => false end = true -> o = Some (got o).
Proof. destruct o; [reflexivity|discriminate]. Qed.
Definition ones : nat -> nat -> nat -> QcFld := fun i j r => qc 1.

(** one wavenumber makes a coefficient vanish: [+=] drops the term, the line gets another
    class, its one-row storage is broadcast over the rows of the others and the line is
    solved by their routine, without any error *)
Theorem C64_vanishing_coefficient_refuted : exists (ts : list (tterm QcFld)) N0 n u,
  terms_ok QcFld SparseProperties.small16 SparseProperties.near1 N0 1 n ts /\
  (forall i, i < N0 -> leading_nonsingular n (md_mat QcFld ts i 0)) /\
  qcall N0 1 true 0 0 true (qnew ts) [] None ones = Some u /\
  ~ md_solves QcFld N0 1 n ts u ones.
Proof.
  exists (md_terms 5 2 (-1)), 4, 5, (got (qcall 4 1 true 0 0 true (qnew (md_terms 5 2 (-1))) [] None ones)).
  split; [apply md_terms_ok; [lia|vm_compute; reflexivity]|]. split.
  - intros i Hi. apply dominantb_spec.
    apply (all2_spec 4 1 (fun i j => dominantb 5 (md_mat QcFld (md_terms 5 2 (-1)) i j))); [vm_compute; reflexivity | lia | lia].
  - split; [apply got_some; vm_compute; reflexivity|]. intros H. destruct (H 2 0 ltac:(lia) ltac:(lia)) as [H1 _].
    specialize (H1 0 ltac:(lia)). revert H1. apply qeqb_false. vm_compute. reflexivity.
Qed.
Print Assumptions C64_vanishing_coefficient_refuted.

(** the slow path solves the same system *)
Example C64_vanishing_slow : let u := got (qcall 4 1 true 0 0 false (qnew (md_terms 5 2 (-1))) [] None ones) in
  all2 4 5 (fun i r => qeqb (md_row QcFld 5 (md_terms 5 2 (-1)) i 0 (u i 0) r) (qc 1)) = true.
Proof. vm_compute. reflexivity. Qed.

(** a rank of a three-dimensional decomposition with one zero start pins the first
    unknown of a wavenumber that is not (0, 0) *)
Theorem C64_constraint_other_mode_refuted : exists (ts : list (tterm QcFld)) N0 N1 n st0 st1 u,
  (st0, st1) <> (0, 0) /\
  terms_ok QcFld SparseProperties.small16 SparseProperties.near1 N0 N1 n ts /\
  (forall i j, i < N0 -> j < N1 -> leading_nonsingular n (md_mat QcFld ts i j)) /\
  qcall N0 N1 false st0 st1 true (qnew ts) [] (Some (qc 0)) ones = Some u /\
  ~ md_solves QcFld N0 N1 n ts u ones.
Proof.
  exists (md_terms 5 3 1), 2, 2, 5, 0, 4, (got (qcall 2 2 false 0 4 true (qnew (md_terms 5 3 1)) [] (Some (qc 0)) ones)).
  split; [discriminate|]. split; [apply md_terms_ok; [lia|vm_compute; reflexivity]|]. split.
  - intros i j Hi Hj. apply dominantb_spec.
    apply (all2_spec 2 2 (fun i j => dominantb 5 (md_mat QcFld (md_terms 5 3 1) i j))); [vm_compute; reflexivity | lia | lia].
  - split; [apply got_some; vm_compute; reflexivity|]. intros H. destruct (H 0 0 ltac:(lia) ltac:(lia)) as [H1 _].
    specialize (H1 0 ltac:(lia)). revert H1. apply qeqb_false. vm_compute. reflexivity.
Qed.
Print Assumptions C64_constraint_other_mode_refuted.

(** a process that holds wavenumber (0, 0) but is not rank 0 of COMM_WORLD (a space on a
    sub-communicator) treats the special line (0, 0) like all others *)
Theorem C64_subcommunicator_refuted : exists (ts : list (tterm QcFld)) N0 N1 n u,
  terms_ok QcFld SparseProperties.small16 SparseProperties.near1 N0 N1 n ts /\
  (forall i j, i < N0 -> j < N1 -> leading_nonsingular n (md_mat QcFld ts i j)) /\
  (forall i j, i < N0 -> j < N1 -> (i, j) <> (0, 0) -> kindq ts i j = kindq ts (N0 - 1) (N1 - 1)) /\
  qcall N0 N1 false 0 0 true (qnew ts) [] None ones = Some u /\
  ~ md_solves QcFld N0 N1 n ts u ones.
Proof.
  exists (md_terms 5 0 1), 2, 2, 5, (got (qcall 2 2 false 0 0 true (qnew (md_terms 5 0 1)) [] None ones)).
  split; [apply md_terms_ok; [lia|vm_compute; reflexivity]|]. split.
  - intros i j Hi Hj. apply dominantb_spec.
    apply (all2_spec 2 2 (fun i j => dominantb 5 (md_mat QcFld (md_terms 5 0 1) i j))); [vm_compute; reflexivity | lia | lia].
  - split.
    + intros i j Hi Hj Hne. destruct i as [|[|]]; try lia; destruct j as [|[|]]; try lia; try congruence; vm_compute; reflexivity.
    + split; [apply got_some; vm_compute; reflexivity|]. intros H. destruct (H 0 0 ltac:(lia) ltac:(lia)) as [H1 _].
      specialize (H1 0 ltac:(lia)). revert H1. apply qeqb_false. vm_compute. reflexivity.
Qed.
Print Assumptions C64_subcommunicator_refuted.

(** complex coefficients (a single derivative in a Fourier direction gives 1j*k): the array
    of factors is a float array, the imaginary parts are lost and every line but the first
    is solved with another matrix, on a single process *)
Theorem C64_complex_coefficients_refuted : forall (small16 near1 is0 : CFld -> bool) deq lu_solve,
  (forall x, is0 x = true <-> x = f0) ->
  exists (ts : list (tterm CFld)) u,
    let kind := line_kind CFld small16 near1 is0 deq ts in
    (forall i, i < 2 -> kind i 0 = Some KDiagMA /\ leading_nonsingular 1 (md_mat CFld ts i 0)) /\
    g1_calls CFld is0 lu_solve Cre 2 1 true 0 0 true (g1_new CFld small16 near1 is0 deq ts) [] None
      (fun _ _ _ => C1) = Some u /\
    ~ md_solves CFld 2 1 1 ts u (fun _ _ _ => C1).
Proof.
  intros small16 near1 is0 deq lu_solve H0.
  set (z := ((1, 1)%R : CFld)).
  set (ts := [mkTerm CFld (fun _ _ => z) (mkSmat CFld 1 1 f1 [(0%Z, Scal CFld f1)])]).
  assert (Hz : fmul (f1 : CFld) z = z) by (apply Ceq; simpl; ring).
  assert (Hn : z <> f0) by (intros E; injection E; intros; lra).
  assert (Hi : is0 z = false).
  { destruct (is0 z) eqn:E; auto. apply H0 in E. contradiction. }
  assert (HG : get_solver CFld is0 deq (smul CFld (mkSmat CFld 1 1 f1 [(0%Z, Scal CFld f1)]) z) = Some KDiagMA).
  { unfold get_solver. cbn [smul sm_scale sm_items map fst sort_keys fold_right insert_sorted length].
    rewrite Hz, Hi. reflexivity. }
  assert (HK : forall i, line_kind CFld small16 near1 is0 deq ts i 0 = Some KDiagMA).
  { intros i. unfold line_kind, line_mat, ts. cbn [fold_left line_step t_mat t_scale]. exact HG. }
  assert (HL : forall i j, g_line CFld (g1_new CFld small16 near1 is0 deq ts) i j
    = LBand CFld (new_solver CFld KDiagMA 1 (dia_data CFld (smul CFld (mkSmat CFld 1 1 f1 [(0%Z, Scal CFld f1)]) z)))).
  { intros i j. unfold g1_new, line_mat, ts. cbn [g_line fold_left line_step t_mat t_scale].
    unfold line_solver. rewrite HG. reflexivity. }
  assert (HU : exists u, g1_calls CFld is0 lu_solve Cre 2 1 true 0 0 true (g1_new CFld small16 near1 is0 deq ts) [] None
      (fun _ _ _ => C1) = Some u /\ u 1 0 0 = Cdiv C1 (Cre (Cmul C1 (Cmul C1 z)))).
  { assert (HX : forall G, (forall i j, g_line CFld G i j = LBand CFld (mkSolver KDiagMA 1
        (dia_data CFld (smul CFld (mkSmat CFld 1 1 f1 [(0%Z, Scal CFld f1)]) z)) true)) -> g_data CFld G = None ->
      exists u, option_map snd (let fast := match g_line CFld G 1 0 with LGen _ _ _ true => false | _ => true end in
        if fast then fast_solve CFld lu_solve Cre 2 1 true G (fun _ _ _ => C1)
        else Some (G, slow_solve CFld lu_solve 2 1 G (fun _ _ _ => C1))) = Some u /\
        u 1 0 0 = Cdiv C1 (Cre (Cmul C1 (Cmul C1 z)))).
    { intros G HF HD. rewrite HF. unfold fast_solve. cbn [Nat.sub]. rewrite HF. cbn [s_factored negb].
      unfold get_data. rewrite HD. cbn [all_lines seq list_prod map app forallb fst snd].
      rewrite !HF. cbn [line_inner s_factored data_entry s_kind s_n s_data negb kind_offsets length Nat.eqb is00 andb orb option_map snd].
      eexists. split; [reflexivity|]. cbn [is00 Nat.eqb andb]. rewrite HF. reflexivity. }
    apply (HX (g1_perform_lu CFld is0 (g1_new CFld small16 near1 is0 deq ts))); [|reflexivity].
    intros i j. change (line_lu CFld is0 (g_line CFld (g1_new CFld small16 near1 is0 deq ts) i j)
      = LBand CFld (mkSolver KDiagMA 1 (dia_data CFld (smul CFld (mkSmat CFld 1 1 f1 [(0%Z, Scal CFld f1)]) z)) true)).
    rewrite HL. reflexivity. }
  destruct HU as (u & EU & HU). exists ts, u. cbv zeta. split; [|split; [exact EU|]].
  - intros i _. split; [apply HK|]. intros k Hk x Hx j Hj.
    assert (k = 1) by lia. assert (j = 0) by lia. subst. specialize (Hx 0 ltac:(lia)).
    change (Cadd C0 (Cmul (Cadd (Cmul z (Cmul C1 C1)) C0) (x 0)) = C0) in Hx.
    destruct (x 0) as [a c]. injection Hx as E1 E2. cbn in E1, E2. apply Ceq; simpl; lra.
  - intros H. destruct (H 1 0 ltac:(lia) ltac:(lia)) as [H1 _]. specialize (H1 0 ltac:(lia)).
    change (Cadd (Cmul z (Cadd C0 (Cmul (Cmul C1 C1) (u 1 0 0)))) C0 = C1) in H1. rewrite HU in H1.
    assert (EZ : Cdiv C1 (Cre (Cmul C1 (Cmul C1 z))) = C1).
    { apply Ceq; simpl; unfold Rdiv; field. all: lra. }
    rewrite EZ in H1. injection H1 as E1 E2. cbn in E1, E2. lra.
Qed.
Print Assumptions C64_complex_coefficients_refuted.
