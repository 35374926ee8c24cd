(** BlockSolveProperties.v -- C65: the solver for block systems. *)
From Coq Require Import Arith ZArith List Lia Bool QArith Qcanon.
From Verif Require Import Base Fld Witness SolversModel SolversSpec
  MDSolveSpec NDSolveModel NDSolveSpec NDSolveProofs NDSolveProofs2 MDSolveProperties NDSolveProperties BlockSolveModel.
Import ListNotations.
Local Open Scope nat_scope.

(** x solves A x = b, except that the unknowns of the constraints (row, val) have the value
    of the last constraint for them and their equations are given up *)
Definition solves_con (K : Fld) (n : nat) (A : nat -> nat -> K) (cs : list (nat * K)) (x b : nat -> K) : Prop :=
  (forall i, i < n -> ~ In i (rows_of K cs) -> fsum n (fun j => fmul (A i j) (x j)) = b i) /\
  (forall i pre v post, i < n -> cs = pre ++ (i, v) :: post -> ~ In i (rows_of K post) -> x i = v).
(** the unknown of a constraint (block, dof, value) in the flat vector *)
Definition flat_cons {K : Fld} (off : nat -> nat) (cs : list (con K)) : list (nat * K) :=
  map (fun c => (off (fst (fst c)) + snd (fst c), snd c)) cs.
(** constraints concern the zeroth mode, which is on rank zero *)
Definition applied {K : Fld} (rank0 : bool) (off : nat -> nat) (k : list nat) (cs : list (con K)) : list (nat * K) :=
  if rank0 && forallb (Nat.eqb 0) k then flat_cons off cs else [].

Lemma skip_zero rank0 k : skip rank0 k = negb (rank0 && forallb (Nat.eqb 0) k).
Proof.
  unfold skip. destruct rank0; [|reflexivity]. cbn [negb orb andb].
  induction k as [|a k IH]; [reflexivity|]. cbn [list_sum fold_right forallb].
  destruct a as [|a]; cbn [Nat.eqb andb]; [exact IH | reflexivity].
Qed.
Lemma constrain_all_skip (K : Fld) rank0 off k cs : skip rank0 k = true -> forall A b,
  bl_constrain_all K rank0 off k A b cs = (A, b).
Proof.
  intros H. unfold bl_constrain_all. induction cs as [|c cs IH]; intros A b; [reflexivity|].
  cbn [fold_left]. unfold bl_constrain at 2. rewrite H. apply IH.
Qed.
Lemma constrain_all_some (K : Fld) rank0 off k cs : forall A b,
  bl_constrain_all K rank0 off k (Some A) b cs
  = (Some (fst (nd_constrain K A b (applied rank0 off k cs))), snd (nd_constrain K A b (applied rank0 off k cs))).
Proof.
  intros A b. unfold applied. destruct (skip rank0 k) eqn:E.
  - rewrite constrain_all_skip by auto. rewrite skip_zero in E.
    destruct (rank0 && _); [discriminate|reflexivity].
  - assert (E' := E). rewrite skip_zero in E'. destruct (rank0 && _); [|discriminate].
    unfold bl_constrain_all, nd_constrain, flat_cons. revert A b.
    induction cs as [|c cs IH]; intros A b; [reflexivity|].
    cbn [fold_left map fst snd]. unfold bl_constrain at 2. rewrite E. cbn [fst snd]. apply IH.
Qed.
Lemma constrain_all_none (K : Fld) rank0 off k cs : forall A b,
  bl_constrain_all K rank0 off k None b cs = (None, snd (nd_constrain K A b (applied rank0 off k cs))).
Proof.
  intros A b. unfold applied. destruct (skip rank0 k) eqn:E.
  - rewrite constrain_all_skip by auto. rewrite skip_zero in E.
    destruct (rank0 && _); [discriminate|reflexivity].
  - assert (E' := E). rewrite skip_zero in E'. destruct (rank0 && _); [|discriminate].
    unfold bl_constrain_all, nd_constrain, flat_cons. revert A b.
    induction cs as [|c cs IH]; intros A b; [reflexivity|].
    cbn [fold_left map fst snd]. unfold bl_constrain at 2. rewrite E. cbn [fst snd]. apply IH.
Qed.

Section P.
  Variable K : Fld.
  Variable lu_solve : nat -> (nat -> nat -> K) -> (nat -> K) -> (nat -> K).
  Hypothesis HLU : lu_contract K lu_solve.

  Lemma pinned_solves n A L (cs : list (nat * K)) M b :
    (forall i j, L i j = pinned K (rows_of K cs) A i j) -> regular K n (pinned K (rows_of K cs) A) ->
    solves_con K n A cs (lu_solve n L (snd (nd_constrain K M b cs))) b.
  Proof.
    intros HL HR. set (x := lu_solve n L _).
    assert (HX : solves n L x (snd (nd_constrain K M b cs))).
    { apply HLU. eapply regular_ext; [|exact HR]. intros; rewrite HL; reflexivity. }
    split.
    - intros i Hi Hn. specialize (HX i Hi). rewrite nd_constrain_other in HX by auto. rewrite <- HX.
      apply fsum_ext. intros j _. rewrite HL, pinned_out by auto. reflexivity.
    - intros i pre v post Hi E Hn. specialize (HX i Hi).
      assert (Hin : In i (rows_of K cs)).
      { rewrite E. unfold rows_of. rewrite map_app. apply in_app_iff. right. left. reflexivity. }
      rewrite (fsum_ext K n _ (fun j => if j =? i then x j else f0)) in HX.
      2:{ intros j _. rewrite HL, pinned_in by auto. rewrite (Nat.eqb_sym j). destruct (i =? j).
          - apply (Ring_theory.Rmul_1_l (fringlaws K)).
          - generalize (x j). intros y. exact (MDSolveProofs2.fmul_0_l K y). }
      rewrite fsum_delta, (proj2 (Nat.ltb_lt i n) Hi) in HX. rewrite HX, E. apply nd_constrain_last; auto.
  Qed.

  Section Obj.
    Variables (rank0 : bool) (off : nat -> nat) (n : nat) (A : list nat -> nat -> nat -> K) (keys : list (list nat)).
    Variable cs0 : list (con K).
    Definition same_dofs (cs : list (con K)) : Prop :=
      forall r, In r (rows_of K (flat_cons off cs0)) <-> In r (rows_of K (flat_cons off cs)).
    Let P k := pinned K (rows_of K (applied rank0 off k cs0)) (A k).
    Definition binv (g : bl_state K) : Prop :=
      forall k, In k keys -> match g k with None => True | Some L => forall i j, L i j = P k i j end.
    Lemma applied_rows cs k M i j : same_dofs cs ->
      pinned K (rows_of K (applied rank0 off k cs)) M i j = pinned K (rows_of K (applied rank0 off k cs0)) M i j.
    Proof.
      intros H. unfold applied. destruct (rank0 && _); [|reflexivity].
      unfold pinned. replace (existsb (Nat.eqb i) (rows_of K (flat_cons off cs)))
        with (existsb (Nat.eqb i) (rows_of K (flat_cons off cs0))); auto.
      apply eq_iff_eq_true. rewrite !existsb_exists. split; intros (x & Hx & E); exists x; split; auto; apply H; auto.
    Qed.

    Lemma bl_key_ok lu cs k b : match lu with None => True | Some L => forall i j, L i j = P k i j end -> same_dofs cs ->
      let r := bl_key K lu_solve rank0 off n A lu cs k b in
      (forall i j, fst r i j = P k i j) /\
      (regular K n (P k) -> solves_con K n (A k) (applied rank0 off k cs) (snd r) b).
    Proof.
      intros HG HS r. unfold r, bl_key. destruct lu as [L|].
      - rewrite (constrain_all_none K rank0 off k cs (A k) b). cbn [fst snd]. split; auto.
        intros HR. apply pinned_solves.
        + intros i j. rewrite HG. unfold P. symmetry. apply applied_rows. auto.
        + eapply regular_ext; [|exact HR]. intros. unfold P. symmetry. apply applied_rows. auto.
      - rewrite constrain_all_some. cbn [fst snd].
        assert (HL : forall i j, fst (nd_constrain K (A k) b (applied rank0 off k cs)) i j = P k i j).
        { intros i j. rewrite nd_constrain_mat. unfold P. apply applied_rows. auto. }
        split; auto. intros HR. apply pinned_solves.
        + intros i j. rewrite HL. unfold P. symmetry. apply applied_rows. auto.
        + eapply regular_ext; [|exact HR]. intros. unfold P. symmetry. apply applied_rows. auto.
    Qed.
    Lemma in_keys k : existsb (key_eqb k) keys = true <-> In k keys.
    Proof.
      rewrite existsb_exists. unfold key_eqb. split.
      - intros (x & Hx & E). destruct (list_eq_dec Nat.eq_dec k x); [subst; auto|discriminate].
      - intros H. exists k. split; auto. destruct (list_eq_dec Nat.eq_dec k k); congruence.
    Qed.
    Lemma bl_calls_ok h : forall g cs b u, binv g -> Forall (fun c => same_dofs (fst (fst c))) h -> same_dofs cs ->
      let v := bl_calls K lu_solve rank0 off n A keys g h cs b u in
      (forall k, In k keys -> regular K n (P k) -> solves_con K n (A k) (applied rank0 off k cs) (v k) (b k)) /\
      (forall k, ~ In k keys -> v k = u k).
    Proof.
      induction h as [|[[cs' b'] u'] h IH]; intros g cs b u HI HF HS; cbn [bl_calls].
      - unfold bl_call. cbn [snd]. split.
        + intros k Hk HR. rewrite (proj2 (in_keys k) Hk). exact (proj2 (bl_key_ok (g k) cs k (b k) (HI k Hk) HS) HR).
        + intros k Hk. destruct (existsb (key_eqb k) keys) eqn:E; [apply in_keys in E; contradiction|reflexivity].
      - inversion HF as [|c l H1 H2]; subst. apply IH; auto.
        intros k Hk. unfold bl_call. cbn [fst]. rewrite (proj2 (in_keys k) Hk).
        exact (proj1 (bl_key_ok (g k) cs' k (b' k) (HI k Hk) H1)).
    Qed.
  End Obj.
End P.

(** every call of one object whose calls so far had constraints for the same degrees of
    freedom solves the block system of every key *)
Theorem C65_block_solves : forall (K : Fld) lu_solve rank0 off n (A : list nat -> nat -> nat -> K) keys cs,
  lu_contract K lu_solve ->
  (forall k, In k keys -> regular K n (pinned K (rows_of K (applied rank0 off k cs)) (A k))) ->
  forall h b u,
    Forall (fun c => forall r, In r (rows_of K (flat_cons off cs)) <-> In r (rows_of K (flat_cons off (fst (fst c))))) h ->
    let v := bl_calls K lu_solve rank0 off n A keys (bl_new K) h cs b u in
    (forall k, In k keys -> solves_con K n (A k) (applied rank0 off k cs) (v k) (b k)) /\
    (forall k, ~ In k keys -> v k = u k).
Proof.
  intros K lu_solve rank0 off n A keys cs HLU HR h b u HF v.
  destruct (bl_calls_ok K lu_solve HLU rank0 off n A keys cs h (bl_new K) cs b u) as [H1 H2]; auto.
  - intros k Hk. exact I.
  - intros r. tauto.
Qed.
Print Assumptions C65_block_solves.

(** only Fourier axes: every unconstrained call, and the first call with constraints *)
Theorem C65_block_fourier : forall (K : Fld) lu_solve rank0 off n (A : nat -> nat -> K) h cs b,
  lu_contract K lu_solve -> Forall (fun c => fst c = []) h -> (cs = [] \/ h = []) ->
  regular K n (pinned K (rows_of K (applied rank0 off [0] cs)) A) ->
  solves_con K n A (applied rank0 off [0] cs) (fb_calls K lu_solve rank0 off n A true h cs b) b.
Proof.
  intros K lu_solve rank0 off n A h cs b HLU HF HC HR.
  assert (G : forall h first, cs = [] -> Forall (fun c : list (con K) * (nat -> K) => fst c = []) h ->
    fb_calls K lu_solve rank0 off n A first h cs b = lu_solve n A b).
  { clear - K. intros h. induction h as [|[cs' b'] h IH]; intros first E HF.
    - subst. cbn [fb_calls]. unfold fb_call. cbn [bl_constrain_all fold_left]. destruct first; reflexivity.
    - inversion HF; subst. cbn [fst] in *. cbn [fb_calls]. apply IH; auto. }
  destruct HC as [->| ->].
  - rewrite G by auto. assert (E : applied rank0 off [0] ([] : list (con K)) = []) by (unfold applied; destruct (rank0 && _); reflexivity).
    rewrite E in *. split; [|intros i pre v post _ E'; destruct pre; discriminate].
    intros i Hi _. apply HLU; auto.
  - cbn [fb_calls]. unfold fb_call. rewrite constrain_all_some. cbn [snd].
    apply pinned_solves; auto. intros i j. apply nd_constrain_mat.
Qed.
Print Assumptions C65_block_fourier.

(** two blocks of size 2, the second singular unless its first unknown is pinned; two keys *)
Definition bl_A (k : list nat) : nat -> nat -> QcFld :=
  if forallb (Nat.eqb 0) k
  then mat_of [[qc 2; qc 0; qc 1; qc 1]; [qc 0; qc 2; qc 0; qc 0]; [qc 1; qc 1; qc 1; qc (-1)]; [qc 0; qc 0; qc (-1); qc 1]]
  else mat_of [[qc 2; qc 0; qc 0; qc 0]; [qc 0; qc 2; qc 0; qc 0]; [qc 0; qc 0; qc 3; qc 0]; [qc 0; qc 0; qc 0; qc 4]].
Definition bl_cs : list (con QcFld) := [(1, 0, qc 5)].
Example C65_block_inhabited : forall k, In k [[0]; [1]] ->
  regular QcFld 4 (pinned QcFld (rows_of QcFld (applied true (fun i => 2 * i) k bl_cs)) (bl_A k)).
Proof.
  intros k [<-|[<-|[]]].
  - exists (mat_of [[qcf 1 2; qc 0; qc (-1); qcf (-1) 2]; [qc 0; qcf 1 2; qc 0; qc 0];
                    [qc 0; qc 0; qc 1; qc 0]; [qc 0; qc 0; qc 1; qc 1]]).
    apply is_inverse_spec. vm_compute. reflexivity.
  - exists (mat_of [[qcf 1 2; qc 0; qc 0; qc 0]; [qc 0; qcf 1 2; qc 0; qc 0];
                    [qc 0; qc 0; qcf 1 3; qc 0]; [qc 0; qc 0; qc 0; qcf 1 4]]).
    apply is_inverse_spec. vm_compute. reflexivity.
Qed.

(** only Fourier axes: the second call with the same constraint solves with the matrix that
    is not constrained; the prescribed value is not obtained *)
Theorem C65_block_fourier_constraint_refuted : exists (A : nat -> nat -> QcFld) (off : nat -> nat) (cs : list (con QcFld)) b,
  regular QcFld 2 A /\ regular QcFld 2 (pinned QcFld (rows_of QcFld (applied true off [0] cs)) A) /\
  forall lu_solve, lu_contract QcFld lu_solve ->
    solves_con QcFld 2 A (applied true off [0] cs) (fb_calls QcFld lu_solve true off 2 A true [] cs b) b /\
    ~ solves_con QcFld 2 A (applied true off [0] cs) (fb_calls QcFld lu_solve true off 2 A true [(cs, b)] cs b) b.
Proof.
  set (A := mat_of [[qc 2; qc 0]; [qc 0; qc 3]]).
  set (cs := [(0, 0, qc 5)] : list (con QcFld)).
  exists A, (fun _ => 0), cs, (fun _ => qc 1).
  set (B := mat_of [[qcf 1 2; qc 0]; [qc 0; qcf 1 3]]).
  assert (I0 : is_inverse 2 B A = true) by (vm_compute; reflexivity).
  assert (HR : regular QcFld 2 (pinned QcFld (rows_of QcFld (applied true (fun _ => 0) [0] cs)) A)).
  { exists (mat_of [[qc 1; qc 0]; [qc 0; qcf 1 3]]). apply is_inverse_spec. vm_compute. reflexivity. }
  split; [exists B; apply is_inverse_spec; auto|]. split; [exact HR|].
  intros lu_solve HLU. split; [apply C65_block_fourier; auto|].
  intros [_ H]. specialize (H 0 [] (qc 5) [] ltac:(lia) eq_refl ltac:(intros [])).
  set (v := fb_calls _ _ _ _ _ _ _ _ _ _) in H.
  assert (V : v 0 = lu_solve 2 A (upd (fun _ => qc 1) 0 (qc 5)) 0) by reflexivity.
  rewrite V, (lu_value lu_solve 2 A B _ 0 HLU I0) in H by lia. revert H. apply qeqb_false. vm_compute. reflexivity.
Qed.
Print Assumptions C65_block_fourier_constraint_refuted.
