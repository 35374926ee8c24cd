(** NDSolveProofs2.v -- a call of the object, and histories of calls. *)
From Coq Require Import Arith ZArith List Lia Bool.
From Verif Require Import Base Fld SolversModel SolversSpec SparseModel SparseSpec TPSpec
  MDSolveModel MDSolveSpec MDSolveProofs2 NDSolveModel NDSolveSpec NDSolveProofs.
Import ListNotations.
Local Open Scope nat_scope.

Section P.
  Variable K : Fld.
  Notation vec := (nat -> K).
  Notation dia := (nat -> nat -> K).
  Notation arr := (list nat -> K).
  Notation R := (fringlaws K).
  Add Ring KR : (fringlaws K).
  Variable lu_solve : nat -> (nat -> nat -> K) -> (nat -> K) -> (nat -> K).
  Hypothesis HLU : lu_contract K lu_solve.

  Lemma regular_ext n (A B : dia) : (forall i j, A i j = B i j) -> regular K n A -> regular K n B.
  Proof.
    intros E [C H]. exists C. intros i j Hi Hj. destruct (H i j Hi Hj) as [H1 H2]. split.
    - rewrite <- H1. apply fsum_ext. intros. rewrite E. reflexivity.
    - rewrite <- H2. apply fsum_ext. intros. rewrite E. reflexivity.
  Qed.

  Lemma fold_bc (bcs : list (arr -> arr)) (u : arr) (b : arr) idx :
    fold_left (fun b bc => fun idx => fsub (b idx) (bc u idx)) bcs b idx
    = fsub (b idx) (lsum K (fun bc => bc u idx) bcs).
  Proof.
    revert b. induction bcs as [|c bcs IH]; intros b; cbn [fold_left lsum].
    - generalize (b idx). intros x. ring.
    - rewrite IH. generalize (b idx) (c u idx) (lsum K (fun bc => bc u idx) bcs). intros z x y.
      ring.
  Qed.

  Section Obj.
    Variables (ds : list nat) (ts : list (ndterm K)) (bnd : list nat -> bool) (gval : arr) (bcs : list (arr -> arr)).
    Hypothesis Hok : nd_ok K ds ts.
    Hypothesis Hbnd : bnd_ok K ds bnd bcs.
    Variable rows : list nat.
    Let A := nd_dense K ds ts.

    (** the state after construction, or after calls with constraints on [rows] *)
    Definition inv (g : ndsolver K) : Prop :=
      ((forall i j, ns_mat K g i j = A i j) /\ ns_lu K g = None) \/
      ((forall i j, ns_mat K g i j = pinned K rows A i j) /\
       exists L, ns_lu K g = Some L /\ forall i j, L i j = pinned K rows A i j).
    Lemma inv_new : inv (nd_new K ts).
    Proof. left. split; [|reflexivity]. intros. apply nd_mat_dense. auto. Qed.

    Definition same_rows (cs : list (nat * K)) : Prop := forall r, In r rows <-> In r (rows_of K cs).
    Lemma pinned_same cs (M : dia) i j : same_rows cs -> pinned K (rows_of K cs) M i j = pinned K rows M i j.
    Proof.
      intros H. unfold pinned. replace (existsb (Nat.eqb i) (rows_of K cs)) with (existsb (Nat.eqb i) rows); auto.
      apply eq_iff_eq_true. rewrite !existsb_exists. split; intros (x & Hx & E); exists x; split; auto; apply H; auto.
    Qed.

    Lemma call_ok g cs b u g' r : inv g -> same_rows cs ->
      nd_call K lu_solve ds bnd gval bcs g cs b u = (g', r) ->
      inv g' /\ (regular K (prod ds) (pinned K rows A) -> nd_solves K ds ts bcs cs r b) /\
      (forall idx, bnd idx = true -> r idx = gval idx) /\
      (forall idx, bnd idx = false -> ~ within ds idx -> r idx = u idx).
    Proof.
      intros HI HS E. unfold nd_call in E.
      set (u0 := match bcs with [] => u | _ => set_bnd K bnd gval u end) in E.
      set (b0 := fold_left _ bcs b) in E.
      destruct (nd_constrain K (ns_mat K g) (flatten K ds b0) cs) as [M bs] eqn:EC.
      assert (HM : forall i j, M i j = pinned K rows A i j).
      { intros i j. transitivity (fst (nd_constrain K (ns_mat K g) (flatten K ds b0) cs) i j); [rewrite EC; reflexivity|].
        rewrite nd_constrain_mat, pinned_same by auto. destruct HI as [[H1 _]|[H1 _]].
        - unfold pinned. rewrite H1. reflexivity.
        - apply (pinned_idem K rows rows (ns_mat K g) A); tauto. }
      set (L := match ns_lu K g with Some L => L | None => M end) in E.
      assert (HL : forall i j, L i j = pinned K rows A i j).
      { unfold L. destruct HI as [[_ H1]|[_ (L' & H1 & H2)]]; rewrite H1; auto. }
      inversion E as [[Eg Er]]. clear E.
      split; [right; split; [exact HM | exists L; split; [reflexivity|exact HL]]|].
      set (x := lu_solve (prod ds) L bs). destruct Hbnd as [HB1 HB2].
      assert (Rin : forall idx, within ds idx -> set_bnd K bnd gval (put K ds u0 x) idx = x (flat ds idx)).
      { intros idx Hi. unfold set_bnd. rewrite HB1 by auto. unfold put. rewrite (proj1 (within_inside ds idx) Hi). reflexivity. }
      split; [|split].
      - intros HR.
        assert (HX : solves (prod ds) L x bs).
        { apply HLU. eapply regular_ext; [|exact HR]. intros; rewrite HL; reflexivity. }
        assert (HBC : forall idx bc, In bc bcs -> bc (set_bnd K bnd gval (put K ds u0 x)) idx = bc u0 idx).
        { intros idx bc Hbc. apply HB2; auto. intros jdx Hj. unfold set_bnd. rewrite Hj.
          unfold u0. destruct bcs; [destruct Hbc|]. unfold set_bnd. rewrite Hj. reflexivity. }
        split.
        + intros idx Hi Hn. unfold nd_op.
          rewrite <- (dense_row K ds ts x) by auto.
          assert (HF := flat_lt ds idx Hi). specialize (HX _ HF).
          assert (EX : fsum (prod ds) (fun j => fmul (nd_dense K ds ts (flat ds idx) j) (x j)) = bs (flat ds idx)).
          { rewrite <- HX. apply fsum_ext. intros j _. rewrite HL.
            rewrite pinned_out; [reflexivity|]. intros Hin. apply Hn. apply HS. auto. }
          rewrite EX.
          assert (EB : bs (flat ds idx) = b0 idx).
          { transitivity (snd (nd_constrain K (ns_mat K g) (flatten K ds b0) cs) (flat ds idx)); [rewrite EC; reflexivity|].
            rewrite nd_constrain_other by auto. unfold flatten. rewrite unflat_flat by auto. reflexivity. }
          rewrite EB. unfold b0. rewrite fold_bc.
          rewrite (lsum_ext K (fun bc => bc (set_bnd K bnd gval (put K ds u0 x)) idx) (fun bc => bc u0 idx)) by (intros; apply HBC; auto).
          generalize (b idx) (lsum K (fun bc => bc u0 idx) bcs). intros p q.
          ring.
        + intros idx pre v post Hi Ecs Hn. rewrite Rin by auto.
          assert (HF := flat_lt ds idx Hi). assert (EX := HX _ HF).
          assert (Hin : In (flat ds idx) rows).
          { apply HS. rewrite Ecs. unfold rows_of. rewrite map_app. apply in_app_iff. right. left. reflexivity. }
          rewrite (fsum_ext K _ _ (fun j => if j =? flat ds idx then x j else f0)) in EX.
          2:{ intros j _. rewrite HL, pinned_in by auto. rewrite (Nat.eqb_sym j). destruct (flat ds idx =? j).
              - apply (Ring_theory.Rmul_1_l R).
              - generalize (x j). intros y. exact (fmul_0_l K y). }
          rewrite fsum_delta, (proj2 (Nat.ltb_lt _ _) HF) in EX. rewrite EX.
          transitivity (snd (nd_constrain K (ns_mat K g) (flatten K ds b0) cs) (flat ds idx)); [rewrite EC; reflexivity|].
          rewrite Ecs. apply nd_constrain_last; auto.
      - intros idx Hb. unfold set_bnd. rewrite Hb. reflexivity.
      - intros idx Hb Hw. unfold set_bnd at 1. rewrite Hb. unfold put.
        destruct (inside ds idx) eqn:EI; [apply within_inside in EI; contradiction|].
        unfold u0. destruct bcs; [reflexivity|]. unfold set_bnd. rewrite Hb. reflexivity.
    Qed.

    Lemma calls_ok h : forall g cs b u, inv g -> Forall (fun c => same_rows (fst (fst c))) h -> same_rows cs ->
      let r := nd_calls K lu_solve ds bnd gval bcs g h cs b u in
      (regular K (prod ds) (pinned K rows A) -> nd_solves K ds ts bcs cs r b) /\
      (forall idx, bnd idx = true -> r idx = gval idx) /\
      (forall idx, bnd idx = false -> ~ within ds idx -> r idx = u idx).
    Proof.
      induction h as [|[[cs' b'] u'] h IH]; intros g cs b u HI HF HS; cbn [nd_calls].
      - destruct (nd_call K lu_solve ds bnd gval bcs g cs b u) as [g' r] eqn:E.
        destruct (call_ok _ _ _ _ _ _ HI HS E) as (_ & H). exact H.
      - inversion HF as [|c l H1 H2]; subst.
        destruct (nd_call K lu_solve ds bnd gval bcs g cs' b' u') as [g' r] eqn:E. cbn [fst].
        destruct (call_ok _ _ _ _ _ _ HI H1 E) as (HI' & _). apply IH; auto.
    Qed.
  End Obj.

  (** ** SolverGeneric2ND without constraints *)
  Section G2.
    Variables (diag : option nat) (N d0 d1 : nat) (ts : list (g2term K)).
    Hypothesis Hok : g2_ok K d0 d1 ts.

    Lemma g2_diags_dense i k l : g2_diags K ts i k l = g2_dense K d1 ts i k l.
    Proof.
      destruct Hok as (H0 & _ & _ & H). unfold g2_diags. rewrite (sum_all K (g2_tp K i) ts H0). unfold g2_dense.
      apply lsum_ext. intros t Ht. destruct (H t Ht) as (E1 & E2 & E3 & E4). unfold g2_tp, skron, csc. cbn [x_e x_rows x_cols].
      rewrite E3, E4, !csc_mat. apply (Ring_theory.Rmul_comm R).
    Qed.
    Definition inv2 (g : g2 K) : Prop :=
      (g2_mats K g = None /\ g2_lu K g = None) \/
      (exists M L, g2_mats K g = Some M /\ g2_lu K g = Some L /\
         (forall i k l, M i k l = g2_dense K d1 ts i k l) /\ (forall i k l, L i k l = g2_dense K d1 ts i k l)).

    Lemma g2_split_index i r c : g2_split diag (g2_index diag i r c) = Some (match diag with None => 0 | _ => i end, r, c).
    Proof. destruct diag as [[|[|a]]|]; reflexivity. Qed.

    Lemma g2_call_ok g b u g' v : (diag = None -> N = 1) -> inv2 g -> g2_call K lu_solve diag N d0 d1 ts g [] b u = (g', v) ->
      inv2 g' /\
      ((forall i, i < N -> regular K (d0 * d1) (g2_dense K d1 ts i)) ->
       forall i r c, i < N -> r < d0 -> c < d1 ->
         g2_op K d0 d1 ts (fun i r c => v (g2_index diag i r c)) i r c = b (g2_index diag i r c)).
    Proof.
      intros HN HI E. unfold g2_call in E. cbn [g2_constrain fold_left] in E.
      set (M := match g2_lu K g with Some _ => _ | None => _ end) in E.
      assert (HM : forall i k l, M i k l = g2_dense K d1 ts i k l).
      { intros i k l. unfold M, g2_assemble. destruct HI as [[H1 H2]|(M' & L' & H1 & H2 & H3 & H4)]; rewrite H1, H2.
        - destruct (Nat.eqb_spec i 0) as [->|]; apply g2_diags_dense.
        - apply H3. }
      set (L := match g2_lu K g with Some L => L | None => M end) in E.
      assert (HL : forall i k l, L i k l = g2_dense K d1 ts i k l).
      { unfold L. destruct HI as [[H1 H2]|(M' & L' & H1 & H2 & H3 & H4)]; rewrite H2; auto. }
      pose proof (f_equal snd E) as Ev. pose proof (f_equal fst E) as Eg. cbn [fst snd] in Ev, Eg. clear E. subst g'.
      split; [right; exists M, L; auto|].
      intros HR i r c Hi Hr Hc. destruct Hok as (_ & D0 & D1 & Hsh).
      set (bs := fun i k => b (g2_index diag i (k / d1) (k mod d1))).
      set (x := fun i => lu_solve (d0 * d1) (L i) (bs i)).
      assert (V : forall i r c, i < N -> r < d0 -> c < d1 -> v (g2_index diag i r c) = x i (r * d1 + c)).
      { intros i' r' c' H1 H2 H3. rewrite <- Ev. cbv beta. rewrite g2_split_index.
        assert (E : match diag with None => 0 | _ => i' end = i') by (destruct diag; auto; rewrite (HN eq_refl) in H1; lia).
        rewrite E, (proj2 (Nat.ltb_lt i' N) H1), (proj2 (Nat.ltb_lt r' d0) H2), (proj2 (Nat.ltb_lt c' d1) H3). reflexivity. }
      assert (HX : solves (d0 * d1) (L i) (x i) (bs i)).
      { apply HLU. eapply regular_ext; [|apply (HR i Hi)]. intros; rewrite HL; reflexivity. }
      assert (HK : r * d1 + c < d0 * d1) by nia.
      specialize (HX _ HK). unfold bs in HX. rewrite Nat.div_add_l in HX by lia. rewrite (Nat.div_small c) in HX by auto.
      rewrite Nat.add_0_r in HX. rewrite (Nat.add_comm (r * d1) c) in HX. rewrite Nat.mod_add in HX by lia.
      rewrite Nat.mod_small in HX by auto. rewrite <- HX. unfold g2_op.
      transitivity (fsum (d0 * d1) (fun j => lsum K (fun t => fmul (fmul (g2_scale K t i)
        (fmul (mat_entry K (g2_A0 K t) r (j / d1)) (mat_entry K (g2_A1 K t) c (j mod d1)))) (x i j)) ts)).
      - rewrite (lsum_fsum K (d0 * d1) (fun t j => fmul (fmul (g2_scale K t i)
          (fmul (mat_entry K (g2_A0 K t) r (j / d1)) (mat_entry K (g2_A1 K t) c (j mod d1)))) (x i j))).
        apply lsum_ext. intros t Ht. rewrite fsum_mul. rewrite <- fsum_scal. apply fsum_ext. intros r' Hr'.
        rewrite <- fsum_scal. apply fsum_ext. intros c' Hc'.
        cbv beta. rewrite V by auto. rewrite Nat.div_add_l by lia. rewrite (Nat.div_small c') by auto. rewrite Nat.add_0_r.
        rewrite (Nat.add_comm (r' * d1) c'), Nat.mod_add by lia. rewrite Nat.mod_small by auto.
        apply (Ring_theory.Rmul_assoc R).
      - apply fsum_ext. intros j _. rewrite HL. unfold g2_dense.
        rewrite lsum_scal_r. rewrite (Nat.add_comm c (r * d1)).
        rewrite Nat.div_add_l by lia. rewrite (Nat.div_small c) by auto. rewrite Nat.add_0_r.
        rewrite (Nat.add_comm (r * d1) c), Nat.mod_add by lia. rewrite (Nat.mod_small c) by auto. reflexivity.
    Qed.

    Lemma g2_calls_ok h : forall g b u, (diag = None -> N = 1) -> inv2 g -> Forall (fun c => fst (fst c) = []) h ->
      (forall i, i < N -> regular K (d0 * d1) (g2_dense K d1 ts i)) ->
      let v := g2_calls K lu_solve diag N d0 d1 ts g h [] b u in
      forall i r c, i < N -> r < d0 -> c < d1 ->
         g2_op K d0 d1 ts (fun i r c => v (g2_index diag i r c)) i r c = b (g2_index diag i r c).
    Proof.
      induction h as [|[[cs' b'] u'] h IH]; intros g b u HN HI HF HR; cbn [g2_calls].
      - destruct (g2_call K lu_solve diag N d0 d1 ts g [] b u) as [g' v] eqn:E.
        destruct (g2_call_ok _ _ _ _ _ HN HI E) as (_ & H). apply H; auto.
      - inversion HF as [|c l H1 H2]; subst. cbn [fst] in H1. subst cs'.
        destruct (g2_call K lu_solve diag N d0 d1 ts g [] b' u') as [g' v] eqn:E. cbn [fst].
        destruct (g2_call_ok _ _ _ _ _ HN HI E) as (HI' & _). apply IH; auto.
    Qed.
  End G2.
End P.
