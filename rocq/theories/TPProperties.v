(** TPProperties.v -- C12, C13, C14, C15: tensor product and block matrices. *)
From Coq Require Import Arith ZArith List Lia Bool QArith Qcanon Qcabs.
From Verif Require Import Base Fld Witness SparseModel SparseSpec SparseProofs SparseProperties
  TPModel TPSpec TPProofs TPProofs2 TPProofs3 TPProofs4 ExtractModel ExtractProofs.
Import ListNotations.
Local Open Scope nat_scope.

(** * C12: a TPMatrix acts as scale * (A_0 x A_1 x ...) *)
(** at most two nondiagonal axes, in both orders of application; not covered: three or
    more nondiagonal axes and scaled scalar diagonals, where the claim is false (below) *)
Theorem C12_matvec_partial : forall (K : Fld) L idx first (T : tpmat K) v, tp_ok K L idx T ->
  tp_matvec K L first T v idx = fmul (tp_scale T idx) (kron K (tp_mats T) idx v).
Proof. intros K L idx first T v H. exact (tp_matvec_ok K L idx first T v H). Qed.
Print Assumptions C12_matvec_partial.

(** a 3 x 3 diagonal factor and two nondiagonal factors *)
Definition D3 : smat QcFld := mkSmat QcFld 3 3 (qc 2) [(0%Z, Arr QcFld 3 (fun t => qc (Z.of_nat t + 1)))].
Definition B3 : smat QcFld := mkSmat QcFld 3 3 (qc 1) [((-2)%Z, Scal QcFld (qc 1)); (0%Z, Scal QcFld (qc 5)); (2%Z, Scal QcFld (qc 7))].
Definition C2 : smat QcFld := mkSmat QcFld 2 3 (qc 3) [(0%Z, Scal QcFld (qc 1)); (1%Z, Arr QcFld 2 (fun t => qc 4))].
Definition ex_T : tpmat QcFld := mkTP [B3; D3; C2] [false; true; false] (fun idx => qc (Z.of_nat (nth 1 idx 0) + 2)) false (0, 0).
Example C12_inhabited : tp_ok QcFld [3; 3; 3] [2; 1; 1] ex_T.
Proof.
  split; [|simpl; lia]. simpl.
  split; [|split; [|split; [|exact I]]]; (split; [prove_wf|]; split; [simpl; lia|]; split; [simpl; lia|]; split; [simpl; lia|]; intros E; try discriminate E).
  split; [reflexivity|]. eexists. split; [reflexivity|]. left. eauto.
Qed.
Example C12_value : tp_matvec QcFld [3; 3; 3] true ex_T (fun idx => qc (Z.of_nat (hd 0 idx * 9 + nth 1 idx 0 * 3 + nth 2 idx 0))) [2; 1; 1]
  = qc (3 * 4 * (1 * 3 * (1 * 4 + 4 * 5) + 5 * 3 * (1 * 22 + 4 * 23))).
Proof. apply qeqb_true. vm_compute. reflexivity. Qed.

(** FINDING: get_simplified multiplies the scale with mat[0] without mat.scale when the
    diagonal is stored as a number (matrixbase.py 1338-1341): a scaled constant diagonal
    loses its scale *)
Theorem C12_scalar_scale_refuted : exists (T : tpmat QcFld) v L idx,
  Forall (wf QcFld) (tp_mats T) /\ length (naxes QcFld T) = 1 /\ tp_simplified T = false /\
  Forall2 (fun A i => i < sm_rows QcFld A) (tp_mats T) idx /\
  tp_matvec QcFld L true T v idx <> fmul (tp_scale T idx) (kron QcFld (tp_mats T) idx v).
Proof.
  exists (mkTP [mkSmat QcFld 2 2 (qc 3) [(0%Z, Scal QcFld (qc 1))]; B3] [true; false] (fun _ => qc 1) false (0, 0)),
    (fun _ => qc 1), [2; 3], [0; 0].
  split; [repeat constructor; prove_wf || (simpl; try lia; tauto)|]. split; [reflexivity|]. split; [reflexivity|].
  split; [repeat constructor|]. apply qeqb_false. vm_compute. reflexivity.
Qed.
Print Assumptions C12_scalar_scale_refuted.
(** FINDING: with three nondiagonal (nonperiodic) axes no branch of matvec applies and the
    zero-filled output is returned (matrixbase.py 1443-1490) *)
Theorem C12_three_nondiagonal_refuted : exists (T : tpmat QcFld) v L idx,
  Forall (wf QcFld) (tp_mats T) /\ length (naxes QcFld T) = 3 /\
  axes_ok QcFld (tp_simplified T) (tp_mats T) (tp_diag T) L idx /\
  tp_matvec QcFld L true T v idx = f0 /\
  fmul (tp_scale T idx) (kron QcFld (tp_mats T) idx v) <> f0.
Proof.
  exists (mkTP [B3; B3; B3] [false; false; false] (fun _ => qc 1) false (0, 0)), (fun _ => qc 1), [3; 3; 3], [0; 0; 0].
  split; [repeat constructor; prove_wf || (simpl; try lia; tauto)|]. split; [reflexivity|]. split.
  { simpl. repeat (split; [split; [prove_wf|]; simpl; repeat (split; [lia|]); discriminate|]). exact I. }
  split; [reflexivity|]. apply qeqb_false. vm_compute. reflexivity.
Qed.
Print Assumptions C12_three_nondiagonal_refuted.

(** * C13: simplifying a list preserves the sum and the given matrices *)
(** for fresh matrices (not simplified before) of a space with a diagonal axis, when ==
    does not confuse different factors; the same object may occur several times *)
Theorem C13_partial : forall (K : Fld) (smeq : smat K -> smat K -> bool) L idx first v n rs (s : st K),
  rs <> [] ->
  (forall r, In r rs -> r < st_next s /\ needs_simplify K (st_heap s r) = true /\
                        length (tp_mats (st_heap s r)) = n /\ tp_ok K L idx (st_heap s r)) ->
  good_eq K (fun A => exists r, In r rs /\ In A (tp_mats (get_simplified K (st_heap s r)))) smeq ->
  let '(s', B) := simplified_tpmatrices K smeq s rs in
  lsum K (fun b => tp_matvec K L first (st_heap s' b) v idx) B =
    lsum K (fun r => fmul (tp_scale (st_heap s r) idx) (kron K (tp_mats (st_heap s r)) idx v)) rs /\
  (forall r, r < st_next s -> st_heap s' r = st_heap s r).
Proof.
  intros K smeq L idx first v n rs s Hne H Hg.
  pose proof (simplified_tpmatrices_ok K smeq L idx first v (fun _ => true) n rs s Hne) as S.
  destruct (simplified_tpmatrices K smeq s rs) as [s' B].
  destruct S as (S1 & _ & _ & _ & S5); auto.
  - intros r Hr. destruct (H r Hr) as (?&?&?&?). auto.
  - intros r Hr _. apply H. exact Hr.
  - split; auto. rewrite S5. apply lsum_ext. intros r Hr. apply tp_matvec_ok. apply H. exact Hr.
Qed.
Print Assumptions C13_partial.

(** non-vacuity with the library's == : three matrices, two of them equal up to scale and
    one given twice *)
Definition ex_eq : smat QcFld -> smat QcFld -> bool := sm_eq QcFld qis0 (fold_right Z.add 0%Z) qclose.
Definition E3 : smat QcFld := mkSmat QcFld 3 3 (qc 1) [(0%Z, Scal QcFld (qc 2))].
Definition ex_heap : nat -> tpmat QcFld := fun r => match r with
  | 0 => mkTP [D3; B3] [true; false] (fun _ => qc 1) false (0, 0)
  | 1 => mkTP [D3; E3] [true; false] (fun _ => qc 4) false (0, 0)
  | _ => mkTP [E3; B3] [true; false] (fun _ => qc 5) false (0, 0) end.
Definition ex_st : st QcFld := mkSt ex_heap 3.
Example C13_inhabited :
  (forall r, In r [0; 1; 2; 1] -> r < st_next ex_st /\ needs_simplify QcFld (st_heap ex_st r) = true /\
     length (tp_mats (st_heap ex_st r)) = 2 /\ tp_ok QcFld [3; 3] [1; 2] (st_heap ex_st r)) /\
  good_eq QcFld (fun A => exists r, In r [0; 1; 2; 1] /\ In A (tp_mats (get_simplified QcFld (st_heap ex_st r)))) ex_eq /\
  length (snd (simplified_tpmatrices QcFld ex_eq ex_st [0; 1; 2; 1])) = 2.
Proof.
  assert (HD : axis_ok QcFld false D3 true 3 1).
  { split; [prove_wf|]. simpl. split; [lia|]. split; [lia|]. split; [lia|]. intros _. split; [reflexivity|].
    eexists. split; [reflexivity|]. left. eauto. }
  assert (HE : axis_ok QcFld false E3 true 3 1).
  { split; [prove_wf|]. simpl. split; [lia|]. split; [lia|]. split; [lia|]. intros _. split; [reflexivity|].
    eexists. split; [reflexivity|]. right. reflexivity. }
  assert (HB : axis_ok QcFld false B3 false 3 2).
  { split; [prove_wf|]. simpl. split; [lia|]. split; [lia|]. split; [lia|]. discriminate. }
  assert (HE' : axis_ok QcFld false E3 false 3 2).
  { split; [prove_wf|]. simpl. split; [lia|]. split; [lia|]. split; [lia|]. discriminate. }
  split; [|split].
  - intros r [<-|[<-|[<-|[<-|[]]]]]; (split; [simpl; lia|]; split; [reflexivity|]; split; [reflexivity|];
      split; [simpl; auto | simpl; lia]).
  - set (F := [identity_of QcFld D3; B3; E3]).
    assert (HF : forall A, (exists r, In r [0; 1; 2; 1] /\ In A (tp_mats (get_simplified QcFld (st_heap ex_st r)))) -> In A F).
    { intros A (r & [<-|[<-|[<-|[<-|[]]]]] & Hin); simpl in Hin; unfold F; simpl; tauto. }
    intros A B C HA HB' HC. apply HF in HA, HB', HC. unfold F in *.
    destruct HA as [<-|[<-|[<-|[]]]], HB' as [<-|[<-|[<-|[]]]]; intros E;
      (destruct HC as [<-|[<-|[<-|[]]]]); try (exfalso; revert E; vm_compute; discriminate);
      (split; [repeat split; auto | intros E'; try exact E'; try exact E; exfalso; revert E'; vm_compute; discriminate]).
  - vm_compute. reflexivity.
Qed.

(** FINDING: without a diagonal axis get_simplified returns the object itself, and the
    result list shares it: [A, A, A] becomes 4A instead of 3A, and A itself is changed *)
Definition nd_T : tpmat QcFld := mkTP [B3; B3] [false; false] (fun _ => qc 1) false (0, 0).
Theorem C13_same_object_refuted : exists (s : st QcFld) L idx v,
  tp_ok QcFld L idx (st_heap s 0) /\
  let '(s', B) := simplified_tpmatrices QcFld ex_eq s [0; 0; 0] in
  lsum QcFld (fun b => tp_matvec QcFld L true (st_heap s' b) v idx) B <>
    lsum QcFld (fun r => tp_matvec QcFld L true (st_heap s r) v idx) [0; 0; 0].
Proof.
  exists (mkSt (fun _ => nd_T) 1), [3; 3], [0; 0], (fun _ => qc 1).
  split; [|apply qeqb_false; vm_compute; reflexivity].
  split; [|simpl; lia]. simpl. repeat (split; [split; [prove_wf|]; simpl; repeat (split; [lia|]); discriminate|]). exact I.
Qed.
Print Assumptions C13_same_object_refuted.
(** FINDING: the given matrices are changed: a matrix without diagonal axes, or already
    simplified, acts differently after the call *)
Theorem C13_inputs_mutated_refuted : exists (s : st QcFld) L idx v,
  tp_ok QcFld L idx (st_heap s 0) /\ tp_ok QcFld L idx (st_heap s 1) /\
  let '(s', B) := simplified_tpmatrices QcFld ex_eq s [0; 1] in
  tp_matvec QcFld L true (st_heap s' 0) v idx <> tp_matvec QcFld L true (st_heap s 0) v idx.
Proof.
  exists (mkSt (fun _ => nd_T) 2), [3; 3], [0; 0], (fun _ => qc 1).
  assert (H : tp_ok QcFld [3; 3] [0; 0] nd_T).
  { split; [|simpl; lia]. simpl. repeat (split; [split; [prove_wf|]; simpl; repeat (split; [lia|]); discriminate|]). exact I. }
  split; [exact H|]. split; [exact H|]. apply qeqb_false; vm_compute; reflexivity.
Qed.
Print Assumptions C13_inputs_mutated_refuted.
(** FINDING: factors that differ by their scale compare equal (C10), so their sum is wrong *)
Theorem C13_factor_scale_refuted : exists (s : st QcFld) L idx v,
  tp_ok QcFld L idx (st_heap s 0) /\ tp_ok QcFld L idx (st_heap s 1) /\
  needs_simplify QcFld (st_heap s 0) = true /\ needs_simplify QcFld (st_heap s 1) = true /\
  let '(s', B) := simplified_tpmatrices QcFld ex_eq s [0; 1] in
  lsum QcFld (fun b => tp_matvec QcFld L true (st_heap s' b) v idx) B <>
    lsum QcFld (fun r => tp_matvec QcFld L true (st_heap s r) v idx) [0; 1].
Proof.
  exists (mkSt (fun r => mkTP [D3; smul QcFld B3 (qc (Z.of_nat r + 1))] [true; false] (fun _ => qc 1) false (0, 0)) 2),
    [3; 3], [0; 0], (fun _ => qc 1).
  assert (H : forall z, tp_ok QcFld [3; 3] [0; 0] (mkTP [D3; smul QcFld B3 z] [true; false] (fun _ => qc 1) false (0, 0))).
  { intros z. split; [|simpl; lia]. simpl. split; [|split; [|exact I]].
    - split; [prove_wf|]. simpl. split; [lia|]. split; [lia|]. split; [lia|]. intros _. split; [reflexivity|].
      eexists. split; [reflexivity|]. left. eauto.
    - split; [prove_wf|]. simpl. split; [lia|]. split; [lia|]. split; [lia|]. discriminate. }
  split; [apply H|]. split; [apply H|]. split; [reflexivity|]. split; [reflexivity|].
  apply qeqb_false; vm_compute; reflexivity.
Qed.
Print Assumptions C13_factor_scale_refuted.

(** * C14: block matrices *)
(** row bi of BlockMatrix(ms).matvec(v) is the sum over the columns j of the action on v_j of
    all matrices given with global_index (bi, j); the given objects are unchanged *)
Theorem C14_partial : forall (K : Fld) (smeq : smat K -> smat K -> bool) L idx first (v : nat -> list nat -> K)
    n nc bi ms (s : st K),
  (forall m, In m ms -> m < st_next s /\ needs_simplify K (st_heap s m) = true /\ length (tp_mats (st_heap s m)) = n) ->
  (exists m r, ms = m :: r /\ naxes K (st_heap s m) <> []) ->
  (forall m, In m ms -> fst (tp_index (st_heap s m)) = bi -> tp_ok K L idx (st_heap s m)) ->
  good_eq K (fun A => exists r, In r ms /\ In A (tp_mats (get_simplified K (st_heap s r)))) smeq ->
  let '(s', t') := block_init K smeq s ms in
  block_row K L first (st_heap s') t' nc v bi idx =
    fsum nc (fun j => lsum K (fun m =>
      if (fst (tp_index (st_heap s m)) =? bi) && (snd (tp_index (st_heap s m)) =? j)
      then fmul (tp_scale (st_heap s m) idx) (kron K (tp_mats (st_heap s m)) idx (v j)) else f0) ms) /\
  (forall r, r < st_next s -> st_heap s' r = st_heap s r).
Proof.
  intros K smeq L idx first v n nc bi ms s H1 H2 H3 H4.
  assert (Hne : ms <> []) by (destruct H2 as (m & r & -> & _); discriminate).
  pose proof (block_init_row K smeq L first v idx n nc bi ms s Hne H1 H2 H3 H4) as B.
  destruct (block_init K smeq s ms) as [s' t']. destruct B as [B1 B2]. split; [exact B2 | exact B1].
Qed.
Print Assumptions C14_partial.
(** all-Fourier blocks: the given objects are put in the table and merged in place; the row
    is right when they are distinct objects *)
Theorem C14_fourier_partial : forall (K : Fld) (smeq : smat K -> smat K -> bool) L idx first (v : list nat -> K)
    n bi bj ms (h : nat -> tpmat K),
  NoDup ms -> (forall m, In m ms -> length (tp_mats (h m)) = n) ->
  (forall m, In m ms -> tp_index (h m) = (bi, bj) -> tp_ok K L idx (h m)) ->
  good_eq K (fun A => exists r, In r ms /\ In A (tp_mats (h r))) smeq ->
  let '(h', t') := block_add K smeq h (fun _ _ => []) ms in
  lsum K (fun x => tp_matvec K L first (h' x) v idx) (t' bi bj) =
  lsum K (fun m => if (fst (tp_index (h m)) =? bi) && (snd (tp_index (h m)) =? bj)
                   then tp_matvec K L first (h m) v idx else f0) ms.
Proof.
  intros K smeq L idx first v n bi bj ms h ND Hl Hok Hg.
  pose proof (block_add_matvec K smeq _ Hg n L first v idx bi bj ms h ND) as B.
  destruct (block_add K smeq h (fun _ _ => []) ms) as [h' t']. apply B.
  - intros m Hm. split; [auto|]. apply Forall_forall. intros A HA. eauto.
  - intros m Hm Hs. apply Hok; auto. unfold selb in Hs. apply andb_true_iff in Hs. destruct Hs as [E1 E2].
    apply Nat.eqb_eq in E1, E2. destruct (tp_index (h m)); simpl in *; congruence.
Qed.
Print Assumptions C14_fourier_partial.
Definition ex_bheap : nat -> tpmat QcFld := fun r => match r with
  | 0 => mkTP [D3; B3] [true; false] (fun _ => qc 1) false (0, 0)
  | 1 => mkTP [D3; E3] [true; false] (fun _ => qc 4) false (0, 1)
  | _ => mkTP [E3; B3] [true; false] (fun _ => qc 5) false (0, 0) end.
Example C14_value : let '(s', t') := block_init QcFld ex_eq (mkSt ex_bheap 3) [0; 1; 2] in
  length (t' 0 0) = 1 /\ length (t' 0 1) = 1 /\
  block_row QcFld [3; 3] true (st_heap s') t' 2 (fun j idx => qc (Z.of_nat j + 1)) 0 [1; 2] =
    qc (4 * (1 + 5) + 4 * (4 * 2 * 2) + 5 * (2 * (1 + 5))).
Proof. vm_compute. repeat split; apply Qc_is_canon; reflexivity. Qed.

(** FINDING: BlockMatrix.__iadd__ returns None, so after [M += N] the name M is None
    (the object it was bound to holds the sum) *)
Theorem C14_iadd_refuted : forall (K : Fld) smeq (s : st K) (t : table) ms,
  snd (fst (block_iadd_stmt K smeq s t ms)) = None.
Proof. intros. unfold block_iadd_stmt. destruct (block_add K smeq (st_heap s) t ms). reflexivity. Qed.
Print Assumptions C14_iadd_refuted.
(** FINDING: [P = M + N] changes M: the blocks of M are already simplified, so they are
    not copied and N's matrices are added into them *)
Theorem C14_add_mutates_refuted : exists (s : st QcFld) L idx v,
  tp_ok QcFld L idx (st_heap s 0) /\ tp_ok QcFld L idx (st_heap s 1) /\
  let '(s1, M) := block_init QcFld ex_eq s [0] in
  let '(s2, N) := block_init QcFld ex_eq s1 [1] in
  let '(s3, MN) := block_plus QcFld ex_eq 1 1 s2 M N in
  block_row QcFld L true (st_heap s3) M 1 v 0 idx <> block_row QcFld L true (st_heap s2) M 1 v 0 idx.
Proof.
  exists (mkSt (fun _ => mkTP [D3; B3] [true; false] (fun _ => qc 1) false (0, 0)) 2), [3; 3], [0; 0], (fun _ _ => qc 1).
  assert (H : tp_ok QcFld [3; 3] [0; 0] (mkTP [D3; B3] [true; false] (fun _ => qc 1) false (0, 0))).
  { split; [|simpl; lia]. simpl. split; [|split; [|exact I]].
    - split; [prove_wf|]. simpl. split; [lia|]. split; [lia|]. split; [lia|]. intros _. split; [reflexivity|].
      eexists. split; [reflexivity|]. left. eauto.
    - split; [prove_wf|]. simpl. split; [lia|]. split; [lia|]. split; [lia|]. discriminate. }
  split; [exact H|]. split; [exact H|]. apply qeqb_false; vm_compute; reflexivity.
Qed.
Print Assumptions C14_add_mutates_refuted.
(** FINDING: one-dimensional blocks: adding 2*A (as large as ==, which ignores the scale,
    says) and a different matrix can be counted twice, because the sum A + 2A = 3A is
    compared again with the entries of later blocks of the same list *)
Theorem C14_sparse_double_refuted : exists (ms : list (smat QcFld)) i,
  Forall (wf QcFld) ms /\
  lsum QcFld (fun m => mat_entry QcFld m i i) (sblock_add QcFld ex_eq small16 near1 [] ms) <>
  lsum QcFld (fun m => mat_entry QcFld m i i) ms.
Proof.
  set (d := fun x => mkSmat QcFld 2 2 (qc 1) [(0%Z, Scal QcFld (qc x))]).
  exists [d 1; d 3; smul QcFld (d 1) (qc 2); d 3]%Z, 0. split.
  - repeat constructor; prove_wf || (simpl; try lia; tauto).
  - apply qeqb_false. vm_compute. reflexivity.
Qed.
Print Assumptions C14_sparse_double_refuted.

Section SparseBlocks.
Context {K : Fld}.
Variable smeq : smat K -> smat K -> bool.
Variables small16 near1 : K -> bool.
Lemma sblock_merge_none m l : (forall n, In n l -> smeq m n = false) -> sblock_merge K smeq small16 near1 m l = (l, false).
Proof.
  induction l as [|n l IH]; intros H; [reflexivity|]. unfold sblock_merge in *. cbn [fold_right].
  rewrite IH by (intros; apply H; right; auto). rewrite (H n) by (left; auto). reflexivity.
Qed.
Lemma sblock_merge_one m l1 n l2 : (forall n, In n l1 \/ In n l2 -> smeq m n = false) -> smeq m n = true ->
  sblock_merge K smeq small16 near1 m (l1 ++ n :: l2) = (l1 ++ fst (iadd K small16 near1 n m) :: l2, true).
Proof.
  intros H E. induction l1 as [|a l1 IH].
  - cbn [app]. unfold sblock_merge. cbn [fold_right]. fold (sblock_merge K smeq small16 near1 m l2).
    rewrite sblock_merge_none by (intros; apply H; auto). rewrite E. reflexivity.
  - cbn [app]. unfold sblock_merge. cbn [fold_right]. fold (sblock_merge K smeq small16 near1 m (l1 ++ n :: l2)).
    rewrite IH by (intros x [Hx|Hx]; apply H; [left; right|right]; auto). rewrite (H a) by (left; left; auto). reflexivity.
Qed.
End SparseBlocks.
(** one-dimensional blocks: if no matrix compares equal to one at another place of the list, the
    block keeps exactly the given matrices, in order *)
Theorem C14_sparse_distinct_partial : forall (K : Fld) smeq small16 near1 (l ms : list (smat K)),
  (forall a m b n c, l ++ ms = a ++ n :: b ++ m :: c -> smeq m n = false) ->
  sblock_add K smeq small16 near1 l ms = l ++ ms.
Proof.
  intros K smeq s16 n1 l ms. revert l. induction ms as [|m ms IH]; intros l H; [cbn; rewrite app_nil_r; reflexivity|].
  cbn [sblock_add]. destruct l as [|x l].
  - rewrite IH; [reflexivity|]. exact H.
  - rewrite sblock_merge_none.
    + rewrite IH; [rewrite <- app_assoc; reflexivity|]. rewrite <- app_assoc. exact H.
    + intros n Hn. apply in_split in Hn. destruct Hn as (l1 & l2 & E). rewrite E in H.
      apply (H l1 m l2 n ms). rewrite <- app_assoc. reflexivity.
Qed.
Print Assumptions C14_sparse_distinct_partial.
(** ... and if a matrix that is added compares equal to exactly one in the block, the two are
    summed in place and the block as a whole gains exactly the new matrix, for every additive
    reading f of a matrix that the in-place addition respects (an entry, a product with a vector) *)
Theorem C14_sparse_merge_partial : forall (K : Fld) smeq small16 near1 (l1 l2 : list (smat K)) n m (f : smat K -> K),
  (forall x, In x l1 \/ In x l2 -> smeq m x = false) -> smeq m n = true ->
  f (fst (iadd K small16 near1 n m)) = fadd (f n) (f m) ->
  lsum K f (sblock_add K smeq small16 near1 (l1 ++ n :: l2) [m]) = fadd (lsum K f (l1 ++ n :: l2)) (f m).
Proof.
  intros K smeq s16 n1 l1 l2 n m f H E Hf.
  assert (X : sblock_add K smeq s16 n1 (l1 ++ n :: l2) [m] = l1 ++ fst (iadd K s16 n1 n m) :: l2).
  { cbn [sblock_add]. rewrite sblock_merge_one by auto. destruct l1; reflexivity. }
  rewrite X. clear X. induction l1 as [|a l1 IH].
  - cbn. rewrite Hf. pose proof (fringlaws K) as R. rewrite <- !(Radd_assoc R). f_equal. apply (Radd_comm R).
  - cbn. rewrite IH by (intros x [Hx|Hx]; apply H; [left; right|right]; auto). apply (Radd_assoc (fringlaws K)).
Qed.
Print Assumptions C14_sparse_merge_partial.
Example C14_sparse_inhabited : let d := fun x => mkSmat QcFld 2 2 (qc 1) [(0%Z, Scal QcFld (qc x))] in
  ex_eq (d 1%Z) (d 1%Z) = true /\ ex_eq (d 1%Z) (d 3%Z) = false /\ ex_eq (d 3%Z) (d 1%Z) = false /\
  length (sblock_add QcFld ex_eq small16 near1 [d 1%Z; d 3%Z] [d 1%Z]) = 2.
Proof. repeat split; vm_compute; reflexivity. Qed.

(** * C15: extract_diagonal_matrix *)
(** never invents entries, and produces a well-formed matrix of the same shape *)
Theorem C15_sound : forall r c M lb ub abstol reltol, 0 < r ->
  let D := extract r c M lb ub abstol reltol in
  wf QcFld D /\ sm_rows QcFld D = r /\ sm_cols QcFld D = c /\
  forall i j, mat_entry QcFld D i j = M i j \/ mat_entry QcFld D i j = f0.
Proof.
  intros r c M lb ub ta tr Hr D. split; [apply extract_wf; auto|]. split; [reflexivity|]. split; [reflexivity|].
  intros i j. unfold D. rewrite entry. destruct (in_dec _ _ _); auto.
Qed.
Print Assumptions C15_sound.
(** lossless: with the default bands every entry comes back unless its whole diagonal is
    below the absolute or the relative tolerance *)
Theorem C15_lossless : forall r c (M : nat -> nat -> Qc) abstol reltol, (0 <= abstol)%Qc ->
  (forall i j, i < r -> j < c -> M i j <> 0%Qc -> exists i' j', i' < r /\ j' < c /\
     (Z.of_nat j' - Z.of_nat i' = Z.of_nat j - Z.of_nat i)%Z /\
     (abstol < Qcabs (M i' j'))%Qc /\ (reltol * amax2 r c M < Qcabs (M i' j'))%Qc) ->
  forall i j, i < r -> j < c -> mat_entry QcFld (extract r c M None None abstol reltol) i j = M i j.
Proof.
  intros r c M ta tr Hta H i j Hi Hj.
  destruct (Qc_eq_dec (mat_entry QcFld (extract r c M None None ta tr) i j) (M i j)) as [E|E]; auto. exfalso.
  assert (Hnz : M i j <> 0%Qc). { intros Z. apply E. rewrite entry, Z. destruct (in_dec _ _ _); auto. }
  destruct (H i j Hi Hj Hnz) as (i' & j' & Hi' & Hj' & Ed & L1 & L2).
  destruct (dropped r c M None None ta tr i j Hi Hj) with (i' := i') (j' := j') as [C|C]; auto.
  - unfold in_band, lower, upper. lia.
  - apply (Qclt_not_le _ _ L1); auto.
  - apply (Qclt_not_le _ _ L2); auto.
Qed.
Print Assumptions C15_lossless.
(** and inside explicit bands, a dropped entry belongs to a negligible diagonal; amax2 is
    the largest magnitude in M *)
Theorem C15_dropped : forall r c M lb ub abstol reltol i j, (0 <= abstol)%Qc -> i < r -> j < c ->
  (- Z.of_nat (match lb with None => r - 1 | Some l => l end) <= Z.of_nat j - Z.of_nat i <=
     Z.of_nat (match ub with None => c - 1 | Some u => u end))%Z ->
  mat_entry QcFld (extract r c M lb ub abstol reltol) i j <> M i j ->
  (Qcabs (M i j) <= abstol)%Qc \/ (Qcabs (M i j) <= reltol * amax2 r c M)%Qc.
Proof.
  intros r c M lb ub ta tr i j Hta Hi Hj Hb E.
  apply (dropped r c M lb ub ta tr i j); auto. unfold in_band, lower, upper. destruct lb, ub; lia.
Qed.
Print Assumptions C15_dropped.
Theorem C15_amax : forall r c M, 0 < r -> 0 < c ->
  (forall i j, i < r -> j < c -> (Qcabs (M i j) <= amax2 r c M)%Qc) /\
  exists i j, i < r /\ j < c /\ amax2 r c M = Qcabs (M i j).
Proof.
  intros r c M Hr Hc. split; [intros; apply amax2_ge; auto|].
  assert (A1 : forall n u, (0 < n) -> exists t, t < n /\ amax n u = Qcabs (u t)).
  { induction n as [|n IH]; intros u Hn; [lia|]. simpl. unfold qmax. destruct (qle (amax n u) (Qcabs (u n))) eqn:E; eauto.
    destruct n as [|n].
    - exfalso. simpl in E. rewrite (proj2 (qle_spec _ _) (Qcabs_nonneg _)) in E. discriminate.
    - destruct (IH u) as (t & Ht & Et); [lia|]. exists t. split; [lia | auto]. }
  induction r as [|r IH]; [lia|]. simpl. unfold qmax. destruct (qle (amax2 r c M) (amax c (M r))) eqn:E.
  - destruct (A1 c (M r) Hc) as (t & Ht & Et). exists r, t. auto.
  - destruct r as [|r].
    + exfalso. simpl in E. destruct (A1 c (M 0) Hc) as (t & Ht & Et). rewrite Et in E.
      rewrite (proj2 (qle_spec _ _) (Qcabs_nonneg _)) in E. discriminate.
    + destruct IH as (i & j & Hi & Hj & Eij); [lia|]. exists i, j. auto.
Qed.
Print Assumptions C15_amax.
Example C15_value : let D := extract 3 4 (fun i j => if (j =? i + 1) then qc (Z.of_nat i + 1) else if (i =? j) then qcf 1 (10 ^ 11) else qc 0)
    None None (qcf 1 (10 ^ 10)) (qcf 1 (10 ^ 10)) in
  map (@fst Z (dval QcFld)) (sm_items QcFld D) = (1%Z :: nil)%list.
Proof. vm_compute. reflexivity. Qed.
