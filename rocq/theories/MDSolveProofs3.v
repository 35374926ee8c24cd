(** MDSolveProofs3.v -- SolverGeneric1ND: every call of every history solves the system. *)
From Coq Require Import Arith ZArith List Lia Bool Field.
From Verif Require Import Base Fld SolversModel SolversSpec SolversProofs5 SparseModel SparseSpec
  SparseProofs SparseProofs2 SparseProofs3 TPSpec MDSolveModel MDSolveSpec MDSolveProofs MDSolveProofs2.
Import ListNotations.
Local Open Scope nat_scope.

Section P.
  Variable K : Fld.
  Variables small16 near1 is0 : K -> bool.
  Variable deq : dval K -> dval K -> bool.
  Variable lu_solve : nat -> (nat -> nat -> K) -> (nat -> K) -> (nat -> K).
  Variable re : K -> K.
  Notation vec := (nat -> K).
  Notation dia := (nat -> nat -> K).
  Notation arr := (nat -> nat -> nat -> K).
  Hypothesis is0_spec : forall x, is0 x = true <-> x = f0.
  Hypothesis Hlu : lu_contract K lu_solve.

  Variables N0 N1 n : nat.
  Hypothesis HN0 : 0 < N0.
  Hypothesis HN1 : 0 < N1.
  Variable rank0 : bool.
  Variables st0 st1 : nat.
  Variable fast : bool.
  Variable ts : list (tterm K).
  Hypothesis Hts : terms_ok K small16 near1 N0 N1 n ts.

  Notation call' := (g1_call K is0 lu_solve re N0 N1 rank0 st0 st1 fast).
  Notation calls' := (g1_calls K is0 lu_solve re N0 N1 rank0 st0 st1 fast).
  Notation inner := (line_inner K lu_solve).
  Notation kindf := (line_kind K small16 near1 is0 deq ts).
  Notation fresh := (g1_new K small16 near1 is0 deq ts).

  (** histories *)
  Lemma calls_inv (I : g1 K -> Prop) (ok : option K -> Prop) (post : option K -> arr -> arr -> Prop) :
    (forall g c b, I g -> ok c -> exists g' u, call' g c b = Some (g', u) /\ I g' /\ post c b u) ->
    forall h g c b, I g -> Forall (fun cb => ok (fst cb)) h -> ok c ->
    exists u, calls' g h c b = Some u /\ post c b u.
  Proof.
    intros H. induction h as [|[c' b'] h IH]; intros g c b Hg Hh Hc; cbn [g1_calls].
    - destruct (H g c b Hg Hc) as (g' & u & E & _ & Hp). rewrite E. cbn. eauto.
    - inversion Hh; subst. destruct (H g c' b' Hg) as (g' & u & E & Hg' & _); auto.
      rewrite E. apply IH; auto.
  Qed.

  (** a factored banded line of class k *)
  Definition banded (k : solver_kind) (s : lsol K) (L : dia) : Prop :=
    s = LBand K (mkSolver k n L true).
  (** what the cached data must be for the lines that use it *)
  Definition data_ok (k : solver_kind) (f : nat -> nat -> lsol K) (d : nat -> nat -> dia) : Prop :=
    forall i j, i < N0 -> j < N1 -> is00 rank0 i j = false ->
      exists L, banded k (f i j) L /\ forall r c, d i j r c = L r c.
  Definition fast_state (k : solver_kind) (g : g1 K) : Prop :=
    (exists L, banded k (g_line K g (N0 - 1) (N1 - 1)) L) /\
    (forall i j, i < N0 -> j < N1 -> is00 rank0 i j = false ->
       exists L, banded k (g_line K g i j) L /\ forall r c, re (L r c) = L r c) /\
    match g_data K g with None => True | Some d => data_ok k (g_line K g) d end.

  Lemma is00_true i j : is00 rank0 i j = true -> i = 0 /\ j = 0 /\ rank0 = true.
  Proof.
    unfold is00. rewrite !andb_true_iff, !Nat.eqb_eq. tauto.
  Qed.

  Lemma get_data_ok k g : fast_state k g ->
    exists d, get_data K re N0 N1 rank0 (length (kind_offsets k)) g = Some d /\ data_ok k (g_line K g) d.
  Proof.
    intros (_ & HL & HD). unfold get_data. destruct (g_data K g) as [d|]; eauto.
    assert (HE : forall i j, i < N0 -> j < N1 -> is00 rank0 i j = false ->
      exists L e, banded k (g_line K g i j) L /\ data_entry K re (length (kind_offsets k)) (g_line K g i j) = Some e /\
        forall r c, e r c = L r c).
    { intros i j Hi Hj H0. destruct (HL i j Hi Hj H0) as (L & B & R). unfold banded in B. rewrite B.
      exists L. unfold data_entry. cbn [s_kind s_factored s_data negb]. rewrite Nat.eqb_refl. eexists.
      split; [reflexivity|]. split; [reflexivity|]. exact R. }
    match goal with |- context [if ?b then _ else _] => assert (EB : b = true) end.
    { apply forallb_forall. intros [i j] Hin. apply in_prod_iff in Hin. rewrite !in_seq in Hin. cbn [fst snd].
      destruct (is00 rank0 i j) eqn:E0; auto. destruct (HE i j) as (L & e & _ & Ee & _); auto; try lia.
      rewrite Ee. reflexivity. }
    rewrite EB. eexists. split; [reflexivity|]. intros i j Hi Hj H0. cbv beta. rewrite H0.
    destruct (HE i j Hi Hj H0) as (L & e & B & Ee & R). exists L. rewrite Ee. auto.
  Qed.

  Lemma banded_inner k s L b : banded k s L -> inner s b = Some (solve_of K k n L b).
  Proof. intros ->. reflexivity. Qed.

  Lemma fast_ok k g u : fast_state k g ->
    (rank0 = true -> exists l, inner (g_line K g 0 0) (u 0 0) = Some l) ->
    exists d v, fast_solve K lu_solve re N0 N1 rank0 g u = Some (mkG1 K (g_line K g) (g_lu K g) (Some d), v) /\
      data_ok k (g_line K g) d /\
      forall i j, i < N0 -> j < N1 -> inner (g_line K g i j) (u i j) = Some (v i j).
  Proof.
    intros HS H0. destruct (get_data_ok k g HS) as (d & Ed & Hd).
    destruct HS as ((L1 & B1) & _ & _). unfold fast_solve. rewrite B1. cbn [s_factored negb s_kind s_n].
    assert (HX : exists l, (if rank0 then inner (g_line K g 0 0) (u 0 0) else Some (u 0 0)) = Some l /\
                   (rank0 = true -> inner (g_line K g 0 0) (u 0 0) = Some l)).
    { destruct rank0; eauto. destruct (H0 eq_refl) as (l & E). eauto. eexists. split; eauto. discriminate. }
    destruct HX as (l & El & Hl). rewrite El, Ed. exists d. eexists. split; [reflexivity|]. split; auto.
    intros i j Hi Hj. cbv beta. destruct (is00 rank0 i j) eqn:E0.
    - apply is00_true in E0. destruct E0 as (-> & -> & Hr). auto.
    - destruct (Hd i j Hi Hj E0) as (L & B & R). rewrite (banded_inner k _ L _ B).
      rewrite (proj2 (Nat.ltb_lt i N0) Hi), (proj2 (Nat.ltb_lt j N1) Hj). cbn [andb].
      f_equal. apply solve_of_ext_all. intros; symmetry; apply R.
  Qed.

  Lemma slow_ok g u : forall i j, i < N0 -> j < N1 -> forall l,
    inner (g_line K g i j) (u i j) = Some l -> slow_solve K lu_solve N0 N1 g u i j = l.
  Proof.
    intros i j Hi Hj l E. unfold slow_solve.
    rewrite (proj2 (Nat.ltb_lt i N0) Hi), (proj2 (Nat.ltb_lt j N1) Hj). cbn [andb]. rewrite E. reflexivity.
  Qed.

  (** one call in a factored state, whatever the path *)
  Definition ready (g : g1 K) : Prop :=
    g_lu K g = true /\
    (fast = true -> (exists n' A, g_line K g (N0 - 1) (N1 - 1) = LGen K n' A true) \/
                    exists k, fast_state k g).

  Lemma ready_call g u : ready g ->
    (forall i j, i < N0 -> j < N1 -> exists l, inner (g_line K g i j) (u i j) = Some l) ->
    exists g' v, (let fast := match g_line K g (N0 - 1) (N1 - 1) with LGen _ _ _ true => false | _ => fast end in
                  if fast then fast_solve K lu_solve re N0 N1 rank0 g u
                  else Some (g, slow_solve K lu_solve N0 N1 g u)) = Some (g', v) /\
      ready g' /\ g_line K g' = g_line K g /\
      forall i j, i < N0 -> j < N1 -> inner (g_line K g i j) (u i j) = Some (v i j).
  Proof.
    intros [Hl Hf] HI.
    assert (Slow : exists g' v, Some (g, slow_solve K lu_solve N0 N1 g u) = Some (g', v) /\
      ready g' /\ g_line K g' = g_line K g /\
      forall i j, i < N0 -> j < N1 -> inner (g_line K g i j) (u i j) = Some (v i j)).
    { exists g. eexists. split; [reflexivity|]. split; [split; auto|]. split; auto.
      intros i j Hi Hj. destruct (HI i j Hi Hj) as (l & E). rewrite E. f_equal. symmetry. apply slow_ok; auto. }
    destruct fast eqn:EF.
    2:{ destruct (g_line K g (N0 - 1) (N1 - 1)) as [s1|n1 A1 [|]]; exact Slow. }
    destruct (Hf eq_refl) as [(n1 & A1 & E1)|(k & HS)].
    - rewrite E1. exact Slow.
    - destruct (fast_ok k g u HS) as (d & v & E & Hd & Hv).
      { intros _. apply HI; lia. }
      destruct HS as ((L1 & B1) & HB & HD). rewrite B1. cbv zeta. exists (mkG1 K (g_line K g) (g_lu K g) (Some d)), v.
      split; [exact E|]. split; [|split; [reflexivity|exact Hv]].
      split; [exact Hl|]. intros _. right. exists k. split; [exists L1; exact B1|]. split; [exact HB|]. exact Hd.
  Qed.

  (** ** the lines of a fresh object *)
  Hypothesis Hfast : fast = true -> kindf (N0 - 1) (N1 - 1) <> None ->
    real_part K re /\ terms_real K re N0 N1 ts /\
    forall i j, i < N0 -> j < N1 -> is00 rank0 i j = false -> kindf i j = kindf (N0 - 1) (N1 - 1).

  Lemma fresh_line i j : i < N0 -> j < N1 -> exists A, line_mat K small16 near1 ts i j = Some A /\
    lm_ok K small16 near1 n A (md_mat K ts i j) /\ kindf i j = get_solver K is0 deq A /\
    g_line K fresh i j = line_solver K is0 deq A.
  Proof.
    intros Hi Hj. destruct (line_mat_ok K small16 near1 N0 N1 n ts i j Hts Hi Hj) as (A & E & H).
    exists A. split; auto. split; auto. unfold line_kind, g1_new. cbn [g_line]. rewrite E. auto.
  Qed.

  Lemma banded_line i j k : i < N0 -> j < N1 -> kindf i j = Some k ->
    exists A, line_mat K small16 near1 ts i j = Some A /\ lm_ok K small16 near1 n A (md_mat K ts i j) /\
      g_line K fresh i j = LBand K (new_solver K k n (dia_data K A)) /\
      banded k (line_lu K is0 (g_line K fresh i j)) (lu_of K k n (dia_data K A)).
  Proof.
    intros Hi Hj Hk. destruct (fresh_line i j Hi Hj) as (A & E & H & Ek & El).
    exists A. split; auto. split; auto. rewrite El. unfold line_solver. rewrite <- Ek, Hk.
    destruct H as (_ & R & _). rewrite R. split; auto. unfold banded. cbn [line_lu]. f_equal.
    destruct k; reflexivity.
  Qed.

  Lemma regular_lines : (forall i j, i < N0 -> j < N1 -> line_regular K n (kindf i j) (md_mat K ts i j)) ->
    forall i j b, i < N0 -> j < N1 -> exists l, inner (line_lu K is0 (g_line K fresh i j)) b = Some l /\
      solves n (md_mat K ts i j) l b /\ forall r, n <= r -> l r = b r.
  Proof.
    intros HR i j b Hi Hj. destruct (fresh_line i j Hi Hj) as (A & E & (W & R & C & _ & M) & Ek & El).
    rewrite El. apply own_solves; auto. rewrite <- Ek. apply HR; auto.
  Qed.

  (** a state whose lines, other than perhaps (0,0), are the factored lines of the object *)
  Lemma ready_of (f : nat -> nat -> lsol K) (d : option (nat -> nat -> dia)) :
    (forall i j, i < N0 -> j < N1 -> (i, j) <> (0, 0) \/ rank0 = false ->
       f i j = line_lu K is0 (g_line K fresh i j)) ->
    (forall k, kindf (N0 - 1) (N1 - 1) = Some k -> exists L, banded k (f (N0 - 1) (N1 - 1)) L) ->
    (kindf (N0 - 1) (N1 - 1) = None -> exists n' A, f (N0 - 1) (N1 - 1) = LGen K n' A true) ->
    d = None -> ready (mkG1 K f true d).
  Proof.
    intros Hf Hlast Hgen Hd. split; auto. intros EF. destruct (kindf (N0 - 1) (N1 - 1)) as [k|] eqn:Ek.
    2:{ left. auto. }
    right. exists k. destruct (Hfast EF) as (Hre & Htr & Hk); [congruence|].
    split; [apply Hlast; auto|]. split; [|subst d; exact I].
    intros i j Hi Hj H0. cbn [g_line]. rewrite Hf; auto.
    2:{ unfold is00 in H0. destruct (Nat.eqb_spec i 0), (Nat.eqb_spec j 0), rank0; cbn in H0; auto; try discriminate;
        left; intros X; injection X; congruence. }
    destruct (banded_line i j k Hi Hj) as (A & EA & HA & _ & B); [rewrite Hk; auto|].
    eexists. split; [exact B|]. intros r c. apply (lu_re K re Hre).
    eapply line_re; eauto.
  Qed.

  (** ** unconstrained calls *)
  Lemma gen_last : (forall i j, i < N0 -> j < N1 -> line_regular K n (kindf i j) (md_mat K ts i j)) ->
    kindf (N0 - 1) (N1 - 1) = None ->
    exists n' A, line_lu K is0 (g_line K fresh (N0 - 1) (N1 - 1)) = LGen K n' A true.
  Proof.
    intros HR Hk. destruct (regular_lines HR (N0 - 1) (N1 - 1) (fun _ => f0)) as (l & E & _); try lia.
    destruct (fresh_line (N0 - 1) (N1 - 1)) as (A & EA & HA & Ek & El); try lia.
    rewrite El in *. unfold line_solver in *. rewrite <- Ek, Hk in *. cbn [line_lu] in *.
    destruct (false || (2 <=? nnz K is0 (sm_rows K A) (csc_entry K A)))%bool eqn:Q; [eauto|discriminate E].
  Qed.

  Lemma solves_rows ts' i j x b : solves n (md_mat K ts' i j) x b ->
    forall r, r < n -> md_row K n ts' i j x r = b r.
  Proof. intros H r Hr. rewrite md_row_mat. apply H; auto. Qed.

  Theorem unconstrained_history :
    (forall i j, i < N0 -> j < N1 -> line_regular K n (kindf i j) (md_mat K ts i j)) ->
    forall (h : list (option K * arr)) c b,
      Forall (fun cb => fst cb = None \/ st0 * st1 <> 0) h -> (c = None \/ st0 * st1 <> 0) ->
      exists u, calls' fresh h c b = Some u /\ md_solves K N0 N1 n ts u b.
  Proof.
    intros HR h c b Hh Hc.
    set (Lf := fun i j => line_lu K is0 (g_line K fresh i j)).
    apply (calls_inv (fun g => g = fresh \/ (ready g /\ g_line K g = Lf))
             (fun c => c = None \/ st0 * st1 <> 0) (fun _ b u => md_solves K N0 N1 n ts u b)); auto.
    clear h c b Hh Hc. intros g c b HI Hc.
    assert (EC : g1_constrain K st0 st1 g c b = (g, b)).
    { unfold g1_constrain. destruct c as [v|]; auto. destruct Hc as [|Hc]; [discriminate|].
      apply Nat.eqb_neq in Hc. rewrite Hc. reflexivity. }
    unfold g1_call. rewrite EC. set (g' := g1_perform_lu K is0 g).
    assert (HG : ready g' /\ g_line K g' = Lf).
    { destruct HI as [->|[R E]].
      - split; [|reflexivity]. apply ready_of; auto.
        + intros k Hk. destruct (banded_line (N0 - 1) (N1 - 1) k) as (A & _ & _ & _ & B); auto; try lia. eauto.
        + apply gen_last; auto.
      - subst g'. unfold g1_perform_lu. rewrite (proj1 R). auto. }
    destruct HG as [R E].
    destruct (ready_call g' b R) as (g'' & v & EV & R'' & EL & Hv).
    { intros i j Hi Hj. rewrite E. destruct (regular_lines HR i j (b i j) Hi Hj) as (l & El & _). eauto. }
    exists g'', v. split; [exact EV|]. split; [right; split; auto; congruence|].
    intros i j Hi Hj. specialize (Hv i j Hi Hj). rewrite E in Hv.
    destruct (regular_lines HR i j (b i j) Hi Hj) as (l & El & S1 & S2). unfold Lf in Hv. rewrite El in Hv.
    injection Hv as Hv. subst l. split; auto. apply solves_rows; auto.
  Qed.

  (** ** constrained calls on the rank that holds wavenumber (0, 0) *)
  Lemma ready_upd00 g k0 L : rank0 = true -> ready g ->
    (exists L', banded k0 (g_line K g 0 0) L') ->
    ready (mkG1 K (upd_line (g_line K g) 0 0 (LBand K (mkSolver k0 n L true))) (g_lu K g) (g_data K g)).
  Proof.
    intros Hr [Hl Hf] (L' & B'). split; [exact Hl|]. intros EF. cbn [g_line].
    assert (N : forall i j, is00 rank0 i j = false -> (i =? 0) && (j =? 0) = false).
    { intros i j H. unfold is00 in H. rewrite Hr, andb_true_r in H. exact H. }
    destruct (Hf EF) as [(n' & A & E)|(k & (L1 & B1) & HB & HD)].
    - left. exists n', A. unfold upd_line. destruct ((N0 - 1 =? 0) && (N1 - 1 =? 0)) eqn:Q; auto.
      apply andb_true_iff in Q. rewrite !Nat.eqb_eq in Q. destruct Q as [Q1 Q2]. rewrite Q1, Q2 in E.
      unfold banded in B'. congruence.
    - right. exists k. split; [|split].
      + cbn [g_line]. unfold upd_line. destruct ((N0 - 1 =? 0) && (N1 - 1 =? 0)) eqn:Q; [|eauto].
        apply andb_true_iff in Q. rewrite !Nat.eqb_eq in Q. destruct Q as [Q1 Q2]. rewrite Q1, Q2 in B1.
        exists L. unfold banded in *. rewrite B1 in B'. injection B' as B' _. subst k0. reflexivity.
      + intros i j Hi Hj H0. cbn [g_line]. unfold upd_line. rewrite (N i j H0). auto.
      + cbn [g_data g_line]. destruct (g_data K g) as [d|]; auto. intros i j Hi Hj H0.
        unfold upd_line. rewrite (N i j H0). auto.
  Qed.

  Lemma pin_data_ext k (D D' : dia) : pin_ok k -> (forall r j, D r j = D' r j) ->
    forall r j, pin_data K k D r j = pin_data K k D' r j.
  Proof.
    intros Hk HM r0 j0. destruct Hk as [-> | [-> | [-> | ->]]]; unfold pin_data; simpl;
      unfold upd2; repeat match goal with |- (if ?c then _ else _) = (if ?c then _ else _) => destruct c end; auto.
  Qed.

  Theorem pinned_history k0 : rank0 = true -> st0 * st1 = 0 -> 0 < n ->
    kindf 0 0 = Some k0 -> pin_ok k0 ->
    leading_nonsingular n (ident_row0 (md_mat K ts 0 0)) ->
    (forall i j, i < N0 -> j < N1 -> (i, j) <> (0, 0) -> line_regular K n (kindf i j) (md_mat K ts i j)) ->
    forall (h : list (K * arr)) v b,
      exists u, calls' fresh (map (fun cb => (Some (fst cb), snd cb)) h) (Some v) b = Some u /\
        md_solves_pinned K N0 N1 n ts v u b.
  Proof.
    intros Hr Hst Hn Hk0 Hpin HL0 HR h v b.
    set (Lf := fun i j => line_lu K is0 (g_line K fresh i j)).
    destruct (banded_line 0 0 k0 HN0 HN1 Hk0) as (A & EA & HA & EL & BL).
    set (D := dia_data K A) in *. set (L0 := lu_of K k0 n (pin_data K k0 D)).
    assert (Hmin : kind_min k0 <= n).
    { destruct HA as (W & R & C & _). rewrite <- R. apply wf_kind_min; [exact W | congruence | | ].
      - destruct (fresh_line 0 0 HN0 HN1) as (A' & EA' & _ & Ek & _). rewrite EA in EA'. injection EA' as <-.
        eapply get_solver_keys. rewrite <- Ek. exact Hk0.
      - destruct Hpin as [-> | [-> | [-> | ->]]]; discriminate. }
    assert (HP : pinned_state K k0 L0) by (apply lu_pinned; auto).
    assert (HE : forall r c, dia_entry (kind_offsets k0) D r c = md_mat K ts 0 0 r c).
    { intros r c. destruct (fresh_line 0 0 HN0 HN1) as (A' & EA' & _ & Ek & _). rewrite EA in EA'. injection EA' as <-.
      rewrite <- (get_solver_keys K is0 deq A k0) by (rewrite <- Ek; exact Hk0).
      unfold D. rewrite dia_entry_mat. apply HA. }
    set (I := fun g => g = fresh \/ (ready g /\
      (forall i j, i < N0 -> j < N1 -> (i, j) <> (0, 0) -> g_line K g i j = Lf i j) /\
      exists L, banded k0 (g_line K g 0 0) L /\ forall r c, L r c = L0 r c)).
    destruct (calls_inv I (fun c => exists v, c = Some v)
      (fun c b u => forall v, c = Some v -> md_solves_pinned K N0 N1 n ts v u b)) with
      (h := map (fun cb : K * arr => (Some (fst cb), snd cb)) h) (g := fresh) (c := Some v) (b := b)
      as (u & Eu & Hu).
    2:{ left. reflexivity. }
    2:{ apply Forall_forall. intros cb Hin. apply in_map_iff in Hin. destruct Hin as (x & <- & _). cbn. eauto. }
    2:{ eauto. }
    2:{ exists u. split; auto. }
    clear h v b. intros g c b HI (v & ->).
    assert (EA0 : forall s, (s = new_solver K k0 n D \/ exists L, s = mkSolver k0 n L true) ->
      apply_constraint0 K s v (b 0 0) = (mkSolver k0 n (pin_data K k0 (s_data s)) (s_factored s), upd (b 0 0) 0 v)).
    { intros s [->|(L & ->)]; destruct Hpin as [-> | [-> | [-> | ->]]]; reflexivity. }
    unfold g1_call, g1_constrain. rewrite Hst. cbn [Nat.eqb negb].
    (* the state after constraint and factorisation *)
    assert (HG : exists g' L', g1_perform_lu K is0 (fst (let '(s, b0) := line_constrain K (g_line K g 0 0) v (b 0 0) in
                   (mkG1 K (upd_line (g_line K g) 0 0 s) (g_lu K g) (g_data K g), upd_line b 0 0 b0))) = g' /\
       snd (let '(s, b0) := line_constrain K (g_line K g 0 0) v (b 0 0) in
                   (mkG1 K (upd_line (g_line K g) 0 0 s) (g_lu K g) (g_data K g), upd_line b 0 0 b0))
         = upd_line b 0 0 (upd (b 0 0) 0 v) /\
       ready g' /\ (forall i j, i < N0 -> j < N1 -> (i, j) <> (0, 0) -> g_line K g' i j = Lf i j) /\
       banded k0 (g_line K g' 0 0) L' /\ forall r c, L' r c = L0 r c).
    { destruct HI as [->|(R & HL & L & BL' & EL')].
      - rewrite EL. cbn [line_constrain]. rewrite EA0 by auto. cbn [fst snd]. eexists. exists L0.
        split; [reflexivity|]. split; [reflexivity|]. unfold g1_perform_lu. cbn [g_lu g1_new g_line g_data].
        assert (B00 : banded k0 (line_lu K is0 (LBand K (mkSolver k0 n (pin_data K k0 D) (s_factored (new_solver K k0 n D))))) L0).
        { unfold banded, L0. cbn [line_lu]. f_equal. destruct Hpin as [-> | [-> | [-> | ->]]]; reflexivity. }
        split; [|split; [|split]].
        + apply ready_of; auto.
          * intros i j Hi Hj [H|H]; [|congruence]. unfold upd_line.
            destruct (Nat.eqb_spec i 0); destruct (Nat.eqb_spec j 0); cbn [andb]; auto. subst. congruence.
          * intros k Hk. unfold upd_line. destruct ((N0 - 1 =? 0) && (N1 - 1 =? 0)) eqn:Q.
            -- apply andb_true_iff in Q. rewrite !Nat.eqb_eq in Q. destruct Q as [Q1 Q2]. rewrite Q1, Q2 in Hk.
               rewrite Hk0 in Hk. injection Hk as <-. eauto.
            -- destruct (banded_line (N0 - 1) (N1 - 1) k) as (A1 & _ & _ & _ & B1); auto; try lia. eauto.
          * intros Hk. unfold upd_line. destruct ((N0 - 1 =? 0) && (N1 - 1 =? 0)) eqn:Q.
            -- apply andb_true_iff in Q. rewrite !Nat.eqb_eq in Q. destruct Q as [Q1 Q2]. rewrite Q1, Q2 in Hk. congruence.
            -- assert (NE : (N0 - 1, N1 - 1) <> (0, 0)).
               { intros X. injection X as X1 X2. rewrite X1, X2 in Q. discriminate. }
               pose proof (HR (N0 - 1) (N1 - 1) ltac:(lia) ltac:(lia) NE) as HRl. rewrite Hk in HRl.
               destruct (fresh_line (N0 - 1) (N1 - 1)) as (A1 & EA1 & (W1 & R1 & C1 & _ & M1) & Ek1 & El1); try lia.
               change (exists n' A2, line_lu K is0 (g_line K fresh (N0 - 1) (N1 - 1)) = LGen K n' A2 true).
               rewrite El1. unfold line_solver. rewrite <- Ek1, Hk. cbn [line_lu]. do 2 eexists. f_equal.
               cbn [orb]. apply Nat.leb_le. rewrite R1. destruct HRl as [H2 Hreg]. apply regular_nnz; auto.
               apply (regular_same K n (md_mat K ts (N0 - 1) (N1 - 1))); auto. intros. rewrite csc_mat. auto.
        + intros i j Hi Hj H. unfold upd_line, Lf. cbn [g_line].
          destruct (Nat.eqb_spec i 0); destruct (Nat.eqb_spec j 0); cbn [andb]; auto. subst. congruence.
        + cbn [g_line]. unfold upd_line. cbn [Nat.eqb andb]. exact B00.
        + auto.
      - unfold banded in BL'. rewrite BL'. cbn [line_constrain]. rewrite EA0 by eauto. cbn [fst snd s_data s_factored].
        eexists. exists (pin_data K k0 L). split; [reflexivity|]. split; [reflexivity|].
        unfold g1_perform_lu. cbn [g_lu]. rewrite (proj1 R).
        split; [|split; [|split]].
        + pose proof (ready_upd00 g k0 (pin_data K k0 L) Hr R (ex_intro _ L BL')) as Q.
          rewrite (proj1 R) in Q. exact Q.
        + intros i j Hi Hj H. cbn [g_line]. unfold upd_line.
          destruct (Nat.eqb_spec i 0); destruct (Nat.eqb_spec j 0); cbn [andb]; auto. subst. congruence.
        + reflexivity.
        + intros r c. rewrite (pin_data_ext k0 L L0); auto. }
    destruct HG as (g' & L' & E1 & E2 & R & HL & B & EL').
    destruct (let '(s, b0) := line_constrain K (g_line K g 0 0) v (b 0 0) in
                   (mkG1 K (upd_line (g_line K g) 0 0 s) (g_lu K g) (g_data K g), upd_line b 0 0 b0)) as [g1' b1].
    cbn [fst snd] in E1, E2. subst b1. rewrite E1. set (b1 := upd_line b 0 0 (upd (b 0 0) 0 v)).
    assert (HX : forall i j, i < N0 -> j < N1 -> (i, j) <> (0, 0) -> exists l,
       inner (g_line K g' i j) (b1 i j) = Some l /\ solves n (md_mat K ts i j) l (b i j) /\ forall r, n <= r -> l r = b i j r).
    { intros i j Hi Hj Hne. rewrite HL by auto. unfold Lf.
      assert (Eb : b1 i j = b i j).
      { unfold b1, upd_line. destruct (Nat.eqb_spec i 0); destruct (Nat.eqb_spec j 0); cbn [andb]; auto. subst. congruence. }
      rewrite Eb. destruct (fresh_line i j Hi Hj) as (A1 & EA1 & (W1 & R1 & C1 & _ & M1) & Ek1 & El1).
      rewrite El1. apply own_solves; auto. rewrite <- Ek1. apply HR; auto. }
    destruct (ready_call g' b1 R) as (g'' & w & EV & R'' & EL'' & Hv).
    { intros i j Hi Hj. destruct (Nat.eq_dec i 0) as [->|]; [destruct (Nat.eq_dec j 0) as [->|]|].
      - rewrite (banded_inner k0 _ L' _ B). eauto.
      - destruct (HX 0 j Hi Hj) as (l & E & _); [congruence|eauto].
      - destruct (HX i j Hi Hj) as (l & E & _); [congruence|eauto]. }
    exists g'', w. split; [exact EV|]. split.
    { right. split; auto. split; [intros; rewrite EL''; auto|]. exists L'. rewrite EL''. auto. }
    intros v' Hv'. injection Hv' as <-.
    assert (HW : w 0 0 = solve_of K k0 n L0 (upd (b 0 0) 0 v)).
    { specialize (Hv 0 0 HN0 HN1). rewrite (banded_inner k0 _ L' _ B) in Hv. injection Hv as Hv.
      rewrite <- Hv. unfold b1, upd_line. cbn [Nat.eqb andb]. apply solve_of_ext_all. exact EL'. }
    assert (HC : w 0 0 = snd (call K (new_solver K k0 n D) (Some v) (b 0 0))).
    { rewrite HW. unfold L0. destruct Hpin as [-> | [-> | [-> | ->]]]; reflexivity. }
    assert (HN' : leading_nonsingular n (ident_row0 (dia_entry (kind_offsets k0) D))).
    { apply (leading_same K n (ident_row0 (md_mat K ts 0 0))); auto. intros r c. unfold ident_row0.
      destruct (r =? 0); auto. }
    destruct (pinned_call K k0 n D v (b 0 0) Hpin Hn Hmin HN') as [P1 P2]. rewrite <- HC in P1, P2.
    split; [exact P1|]. intros i j Hi Hj. destruct (Nat.eq_dec i 0) as [->|]; [destruct (Nat.eq_dec j 0) as [->|]|].
    - split.
      + intros r Hr' Hne. rewrite md_row_mat. rewrite <- (P2 r).
        * apply fsum_ext. intros. rewrite HE. reflexivity.
        * destruct r; [congruence|lia].
      + intros r Hr'. rewrite HW. rewrite solve_keeps; auto.
        * rewrite upd_other by lia. reflexivity.
        * destruct Hpin as [-> | [-> | [-> | ->]]]; discriminate.
    - destruct (HX 0 j Hi Hj) as (l & E & S1 & S2); [congruence|]. rewrite Hv in E by auto. injection E as <-.
      split; auto. intros. apply solves_rows; auto.
    - destruct (HX i j Hi Hj) as (l & E & S1 & S2); [congruence|]. rewrite Hv in E by auto. injection E as <-.
      split; auto. intros. apply solves_rows; auto.
  Qed.
End P.
