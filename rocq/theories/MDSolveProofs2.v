(** MDSolveProofs2.v -- assembling the line matrices and their solvers. *)
From Coq Require Import Arith ZArith List Lia Bool Field.
From Verif Require Import Base Fld SolversModel SolversSpec SolversProofs5 SparseModel SparseSpec
  SparseProofs SparseProofs2 SparseProofs3 TPSpec MDSolveModel MDSolveSpec MDSolveProofs.
Import ListNotations.
Local Open Scope nat_scope.

Section P.
  Variable K : Fld.
  Add Field KF : (flaws K).
  Variables small16 near1 is0 : K -> bool.
  Variable deq : dval K -> dval K -> bool.
  Variable lu_solve : nat -> (nat -> nat -> K) -> (nat -> K) -> (nat -> K).
  Variable re : K -> K.
  Notation vec := (nat -> K).
  Notation dia := (nat -> nat -> K).
  Notation tterm := (tterm K).

  Definition clean (s : K) : Prop := (small16 s = true -> s = f0) /\ (near1 s = true -> s = f1).

  Lemma iadd_scale (A D : smat K) : let s := sm_scale K (fst (iadd K small16 near1 A D)) in
    s = sm_scale K A \/ s = sm_scale K D \/ s = f1.
  Proof.
    unfold iadd. destruct (small16 (sm_scale K D)); cbn; auto.
    destruct (small16 (sm_scale K A)); cbn; auto.
    unfold incorporate_scale. destruct (near1 (sm_scale K A)); cbn; auto.
  Qed.

  Lemma lsum_md (t : tterm) ts i j r c :
    md_mat K (t :: ts) i j r c = fadd (fmul (t_scale K t i j) (mat_entry K (t_mat K t) r c)) (md_mat K ts i j r c).
  Proof. reflexivity. Qed.

  Lemma smul_entry (A : smat K) y r c : mat_entry K (smul K A y) r c = fmul y (mat_entry K A r c).
  Proof. rewrite !mat_entry_oget. cbn [smul sm_items sm_scale]. ring. Qed.
  Lemma smul_wf (A : smat K) y : wf K A -> wf K (smul K A y).
  Proof. destruct A. intros H. exact H. Qed.

  Section Terms.
    Variables N0 N1 n : nat.

    Definition lm_ok (A : smat K) (e : nat -> nat -> K) : Prop :=
      wf K A /\ sm_rows K A = n /\ sm_cols K A = n /\ clean (sm_scale K A) /\
      forall r c, mat_entry K A r c = e r c.

    Lemma line_fold i j : i < N0 -> j < N1 -> small16 f1 = false -> forall ts,
      (forall t, In t ts -> wf K (t_mat K t) /\ sm_rows K (t_mat K t) = n /\ sm_cols K (t_mat K t) = n /\
        forall i j, i < N0 -> j < N1 -> clean (fmul (sm_scale K (t_mat K t)) (t_scale K t i j))) ->
      forall A e, lm_ok A e ->
      exists B, fold_left (line_step K small16 near1 i j) ts (Some A) = Some B /\
        lm_ok B (fun r c => fadd (e r c) (md_mat K ts i j r c)).
    Proof.
      intros Hi Hj H1. induction ts as [|t ts IH]; intros Ht A e HA.
      - exists A. split; auto. destruct HA as (W & R & C & L & E). repeat split; auto; try apply W; try apply L.
        intros. rewrite E. unfold md_mat. cbn [lsum]. ring.
      - cbn [fold_left]. destruct (Ht t (or_introl eq_refl)) as (W & R & C & S1).
        specialize (S1 i j Hi Hj). destruct HA as (AW & AR & AC & AL & AE).
        set (m := smul K (t_mat K t) (t_scale K t i j)).
        assert (Wm : wf K m) by (apply smul_wf; auto).
        assert (Em : forall r c, mat_entry K m r c = fmul (t_scale K t i j) (mat_entry K (t_mat K t) r c))
          by (intros; apply smul_entry).
        assert (HB : exists B, line_step K small16 near1 i j (Some A) t = Some B /\
          lm_ok B (fun r c => fadd (e r c) (fmul (t_scale K t i j) (mat_entry K (t_mat K t) r c)))).
        { unfold line_step. fold m. destruct (sm_items K A) eqn:EI.
          - exists m. split; auto. split; [auto|]. split; [exact R|]. split; [exact C|]. split; [exact S1|].
            intros r c. rewrite Em, <- AE. rewrite (mat_entry_oget K A), EI. cbn. ring.
          - exists (fst (iadd K small16 near1 A m)). split; auto.
            destruct (iadd_ok K small16 near1 A m) as (Q1 & Q2 & Q3 & Q4 & _); auto.
            + rewrite AR. exact R.
            + rewrite AC. exact C.
            + apply AL.
            + apply S1.
            + apply AL.
            + apply S1.
            + split; [auto|]. split; [congruence|]. split; [congruence|]. split.
              * destruct (iadd_scale A m) as [E|[E|E]]; rewrite E; auto. split; auto. rewrite H1. discriminate.
              * intros r c. rewrite Q4, AE, Em. reflexivity. }
        destruct HB as (B & EB & HB). rewrite EB.
        destruct (IH (fun t' H' => Ht t' (or_intror H')) B _ HB) as (B' & E' & H').
        exists B'. split; auto. destruct H' as (q1 & q2 & q3 & q4 & q5).
        split; [auto|]. split; [auto|]. split; [auto|]. split; [auto|].
        intros r c. rewrite q5, lsum_md. ring.
    Qed.

    Lemma line_mat_ok ts i j : terms_ok K small16 near1 N0 N1 n ts -> i < N0 -> j < N1 ->
      exists A, line_mat K small16 near1 ts i j = Some A /\ lm_ok A (md_mat K ts i j).
    Proof.
      intros (Hne & H1 & Ht) Hi Hj. destruct ts as [|t ts]; [congruence|]. unfold line_mat. cbn [fold_left].
      unfold line_step at 2. destruct (Ht t (or_introl eq_refl)) as (W & R & C & S1).
      destruct (line_fold i j Hi Hj H1 ts (fun t' H' => Ht t' (or_intror H'))
        (smul K (t_mat K t) (t_scale K t i j)) (fun r c => fmul (t_scale K t i j) (mat_entry K (t_mat K t) r c)))
        as (B & EB & HB).
      - split; [apply smul_wf; auto|]. split; [exact R|]. split; [exact C|]. split; [apply S1; auto|].
        intros. apply smul_entry.
      - exists B. split; [exact EB|]. exact HB.
    Qed.
  End Terms.

  (** ** the line matrices of a real system are real *)
  Section Re.
    Hypothesis Hre : real_part K re.
    Definition isre (x : K) : Prop := re x = x.
    Lemma re_add x y : isre x -> isre y -> isre (fadd x y).
    Proof. destruct Hre as (_ & _ & H). intros. apply H; auto. Qed.
    Lemma re_sub x y : isre x -> isre y -> isre (fsub x y).
    Proof. destruct Hre as (_ & _ & H). intros. apply H; auto. Qed.
    Lemma re_mul x y : isre x -> isre y -> isre (fmul x y).
    Proof. destruct Hre as (_ & _ & H). intros. apply H; auto. Qed.
    Lemma re_div x y : isre x -> isre y -> isre (fdiv x y).
    Proof. destruct Hre as (_ & _ & H). intros. apply H; auto. Qed.
    Definition item_re (kv : Z * dval K) : Prop := forall r, isre (dget K (snd kv) r).
    Definition mat_re (A : smat K) : Prop := isre (sm_scale K A) /\ Forall item_re (sm_items K A).

    Lemma incorporate_re A : mat_re A -> mat_re (incorporate_scale K near1 A).
    Proof.
      intros [H1 H2]. unfold incorporate_scale. destruct (near1 (sm_scale K A)); [split; auto|].
      split; [apply Hre|]. cbn [sm_items]. apply Forall_forall. intros kv Hkv.
      apply in_map_iff in Hkv. destruct Hkv as (kv' & <- & Hin). intros r. cbn [snd].
      rewrite dget_scale. apply re_mul; [|exact H1]. exact (proj1 (Forall_forall _ _) H2 _ Hin r).
    Qed.
    Lemma add_items_re l f : Forall item_re l -> Forall item_re f -> Forall item_re (add_items K l f).
    Proof.
      unfold add_items. revert f. induction l as [|[k v] l IH]; intros f Hl Hf; auto.
      cbn [fold_left fst snd]. inversion Hl; subst. apply IH; auto.
      destruct (dict_get K k f) as [w|] eqn:E.
      - apply set_Forall; auto. intros r. cbn [snd]. rewrite dget_bin. apply re_add.
        + rewrite dict_get_lookup in E. apply lookup_In in E. exact (proj1 (Forall_forall _ _) Hf _ E r).
        + match goal with H : item_re (k, v) |- _ => apply H end.
      - apply set_Forall; auto.
    Qed.
    Lemma copy_items_re l f : Forall item_re l -> Forall item_re f ->
      Forall item_re (fold_left (fun f kv => dict_set K (fst kv) (snd kv) f) l f).
    Proof.
      revert f. induction l as [|[k v] l IH]; intros f Hl Hf; auto.
      cbn [fold_left fst snd]. inversion Hl; subst. apply IH; auto. apply set_Forall; auto.
    Qed.
    Lemma iadd_re A D : mat_re A -> mat_re D -> mat_re (fst (iadd K small16 near1 A D)).
    Proof.
      intros HA HD. unfold iadd. destruct (small16 (sm_scale K D)); auto.
      destruct (small16 (sm_scale K A)); cbn [fst].
      - split; [apply HD|]. cbn [sm_items]. apply copy_items_re; auto. apply HD.
      - split; cbn [sm_scale sm_items]; [apply incorporate_re; auto|].
        apply add_items_re; apply incorporate_re; auto.
    Qed.
    Lemma line_re N0 N1 ts i j A : terms_real K re N0 N1 ts -> i < N0 -> j < N1 ->
      line_mat K small16 near1 ts i j = Some A -> mat_re A.
    Proof.
      intros Ht Hi Hj.
      assert (G : forall ts sol, (forall t, In t ts -> mat_re (smul K (t_mat K t) (t_scale K t i j))) ->
        match sol with Some B => mat_re B | None => True end ->
        forall A, fold_left (line_step K small16 near1 i j) ts sol = Some A -> mat_re A).
      { clear - Hre. induction ts as [|t ts IH]; intros sol H Hs A E; cbn [fold_left] in E.
        - subst sol. exact Hs.
        - apply (IH _ (fun t' H' => H t' (or_intror H'))) in E; auto.
          assert (Hm := H t (or_introl eq_refl)). unfold line_step. destruct sol as [B|]; auto.
          destruct (sm_items K B); auto. apply iadd_re; auto. }
      apply (G ts None); auto. intros t Hin. destruct (Ht t Hin) as (H1 & H2 & H3). split.
      - cbn. apply re_mul; [exact H1|]. apply H2; auto.
      - cbn. apply Forall_forall. intros kv Hkv r. apply H3; auto.
    Qed.
    Lemma dia_data_re A : mat_re A -> allP K isre (dia_data K A).
    Proof.
      intros [H1 H2] k c. unfold dia_data. destruct (nth_error _ k) as [key|]; [|apply Hre].
      destruct (dict_get K key (sm_items K A)) as [v|] eqn:E; [|apply Hre].
      apply re_mul; [|exact H1]. rewrite dict_get_lookup in E. apply lookup_In in E.
      exact (proj1 (Forall_forall _ _) H2 _ E _).
    Qed.
    Lemma lu_re k n A : mat_re A -> allP K isre (lu_of K k n (dia_data K A)).
    Proof. intros H. apply lu_P; auto using re_sub, re_mul, re_div, dia_data_re. Qed.
  End Re.

  (** ** each line is solved by its own solver *)
  Hypothesis is0_spec : forall x, is0 x = true <-> x = f0.

  Lemma csc_mat (A : smat K) i j : csc_entry K A i j = mat_entry K A i j.
  Proof.
    unfold csc_entry, unscaled_entry. rewrite items_entry_lookup, mat_entry_oget. reflexivity.
  Qed.

  Lemma fsum_none m (f : nat -> K) : (forall i, i < m -> f i = f0) -> fsum m f = f0.
  Proof.
    intros H. transitivity (fsum m (fun _ : nat => (f0 : K))).
    - apply fsum_ext. intros. apply H; auto.
    - clear. induction m as [|m IH]; [reflexivity|]. rewrite fsum_S, IH. ring.
  Qed.

  Lemma regular_kernel n (A : dia) : regular K n A -> forall x : vec,
    (forall i, i < n -> fsum n (fun j => fmul (A i j) (x j)) = f0) -> forall j, j < n -> x j = f0.
  Proof.
    intros (B & HB) x Hx i Hi.
    transitivity (fsum n (fun j => fmul (fsum n (fun k => fmul (B i k) (A k j))) (x j))).
    - transitivity (fsum n (fun j => if j =? i then x j else f0)).
      + rewrite fsum_delta. rewrite (proj2 (Nat.ltb_lt i n) Hi). reflexivity.
      + apply fsum_ext. intros j Hj. rewrite (proj1 (HB i j Hi Hj)), (Nat.eqb_sym i j).
        destruct (j =? i); ring.
    - transitivity (fsum n (fun j => fsum n (fun k => fmul (B i k) (fmul (A k j) (x j))))).
      + apply fsum_ext. intros j Hj. rewrite <- fsum_scal_r. apply fsum_ext. intros. ring.
      + rewrite fsum_swap. apply fsum_none. intros k Hk. rewrite fsum_scal, Hx by auto. ring.
  Qed.

  (** a regular matrix of size two or more has at least two entries *)
  Lemma regular_nnz n (A : dia) : 2 <= n -> regular K n A -> 2 <= nnz K is0 n A.
  Proof.
    intros Hn HR. unfold nnz. set (l := filter _ _).
    assert (Hl : forall i j, i < n -> j < n -> A i j <> f0 -> In (i, j) l).
    { intros i j Hi Hj Ha. unfold l. apply filter_In. split.
      - apply in_prod; apply in_seq; lia.
      - cbn [fst snd]. destruct (is0 (A i j)) eqn:E; auto. apply is0_spec in E. contradiction. }
    assert (HC : exists c0, c0 < n /\ forall i j, i < n -> j < n -> j = c0 -> length l < 2 -> A i j = f0).
    { destruct l as [|[r1 c1] [|p l']].
      - exists 0. split; [lia|]. intros i j Hi Hj _ _.
        destruct (is0 (A i j)) eqn:E; [apply is0_spec; auto|].
        exfalso. apply (Hl i j Hi Hj). intros E'. apply is0_spec in E'. congruence.
      - exists (if c1 =? 0 then 1 else 0). split; [destruct (c1 =? 0); lia|]. intros i j Hi Hj Hc _.
        destruct (is0 (A i j)) eqn:E; [apply is0_spec; auto|].
        exfalso. destruct (Hl i j Hi Hj) as [F|[]].
        + intros E'. apply is0_spec in E'. congruence.
        + injection F as E1 E2. subst. destruct (Nat.eqb_spec c1 0); lia.
      - exists 0. split; [lia|]. cbn [length]. intros. lia. }
    destruct HC as (c0 & Hc0 & HC). destruct (le_lt_dec 2 (length l)) as [|Hlt]; auto.
    exfalso. apply (f1_neq_0 K).
    assert (Hx := regular_kernel n A HR (fun j => if j =? c0 then f1 else f0)).
    specialize (fun H => Hx H c0 Hc0). cbv beta in Hx. rewrite Nat.eqb_refl in Hx. apply Hx.
    intros i Hi. apply fsum_none. intros j Hj. destruct (Nat.eqb_spec j c0).
    - rewrite (HC i j); auto. ring.
    - ring.
  Qed.

  Hypothesis Hlu : lu_contract K lu_solve.

  Lemma solves_same n (A B : dia) x b : (forall i j, A i j = B i j) -> solves n A x b -> solves n B x b.
  Proof. intros E H i Hi. rewrite <- (H i Hi). apply fsum_ext. intros. now rewrite E. Qed.
  Lemma leading_same n (A B : dia) : (forall i j, A i j = B i j) -> leading_nonsingular n A -> leading_nonsingular n B.
  Proof.
    intros E H k Hk x Hx. apply (H k Hk x). intros i Hi. rewrite <- (Hx i Hi). apply fsum_ext. intros. now rewrite E.
  Qed.
  Lemma regular_same n (A B : dia) : (forall i j, A i j = B i j) -> regular K n A -> regular K n B.
  Proof.
    intros E (C & H). exists C. intros i j Hi Hj. destruct (H i j Hi Hj) as [H1 H2]. split.
    - rewrite <- H1. apply fsum_ext. intros. now rewrite E.
    - rewrite <- H2. apply fsum_ext. intros. now rewrite E.
  Qed.

  Lemma own_solves (A : smat K) n e b :
    wf K A -> sm_rows K A = n -> sm_cols K A = n -> (forall r c, mat_entry K A r c = e r c) ->
    line_regular K n (get_solver K is0 deq A) e ->
    exists l, line_inner K lu_solve (line_lu K is0 (line_solver K is0 deq A)) b = Some l /\
      solves n e l b /\ forall r, n <= r -> l r = b r.
  Proof.
    intros W R C E HR. unfold line_solver. destruct (get_solver K is0 deq A) as [k|] eqn:G.
    - destruct HR as [Hk HN].
      assert (HA : leading_nonsingular (sm_rows K A) (mat_entry K A)).
      { rewrite R. apply (leading_same n e); auto. }
      assert (Hc := solver_solves K is0 deq A k b W ltac:(congruence) G Hk HA).
      assert (Hm : kind_min k <= n).
      { rewrite <- R. apply wf_kind_min; [exact W | congruence | eapply get_solver_keys; eauto | exact Hk]. }
      assert (F : s_factored (perform_lu K (new_solver K k (sm_rows K A) (dia_data K A))) = true).
      { destruct k; reflexivity. }
      cbn [line_lu line_inner]. rewrite F. eexists. split; [reflexivity|]. split.
      + rewrite R in *. apply (solves_same n (mat_entry K A)); auto.
      + intros r Hr. unfold perform_lu, new_solver. cbn [s_factored].
        destruct k; cbn [s_kind s_n s_data]; rewrite R; apply solve_keeps; auto.
    - destruct HR as [H2 HR].
      assert (HA : regular K n (csc_entry K A)).
      { apply (regular_same n e); auto. intros. rewrite csc_mat. auto. }
      assert (Hnz := regular_nnz n _ H2 HA). cbn [line_lu line_inner]. rewrite R.
      destruct (Nat.leb_spec 2 (nnz K is0 n (csc_entry K A))); [|lia]. cbn [orb].
      eexists. split; [reflexivity|]. destruct (Hlu n (csc_entry K A) b) as [L1 L2]. split; auto.
      apply (solves_same n (csc_entry K A)); auto. intros. rewrite csc_mat. auto.
  Qed.

  Lemma fmul_0_l (x : K) : fmul f0 x = f0.
  Proof. ring. Qed.
  (** md_row is the matrix-vector product with md_mat *)
  Lemma fsum_scal' n c (f : nat -> K) : fsum n (fun i => fmul c (f i)) = fmul c (fsum n f).
  Proof. induction n as [|n IH]; [cbn; ring|]. rewrite !fsum_S, IH. ring. Qed.
  Lemma fsum_add' n (f g : nat -> K) : fsum n (fun i => fadd (f i) (g i)) = fadd (fsum n f) (fsum n g).
  Proof. induction n as [|n IH]; [cbn; ring|]. rewrite !fsum_S, IH. ring. Qed.
  Lemma md_row_mat n ts i j x r : md_row K n ts i j x r = fsum n (fun c => fmul (md_mat K ts i j r c) (x c)).
  Proof.
    unfold md_row, md_mat. induction ts as [|t ts IH]; cbn [lsum].
    - symmetry. apply fsum_none. intros. ring.
    - rewrite IH. rewrite <- fsum_scal', <- fsum_add'. apply fsum_ext. intros. ring.
  Qed.
End P.
