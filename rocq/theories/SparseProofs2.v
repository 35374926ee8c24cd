(** SparseProofs2.v -- algebra, solver choice, equality. *)
From Coq Require Import Arith ZArith List Lia Bool Field.
From Verif Require Import Base Fld SolversModel SolversSpec SolversProofs5 SparseModel SparseSpec SparseProofs.
Import ListNotations.
Local Open Scope nat_scope.

Section P.
  Variable K : Fld.
  Add Field KF : (flaws K).
  Notation vec := (nat -> K).
  Notation dval := (dval K).
  Notation smat := (smat K).
  Local Open Scope fld_scope.

  Section Tol.
    Variables small15 small16 near1 : K -> bool.

    (** result r of a binary operation on A and D, and D as it is left behind *)
    Definition result_is (op : K -> K -> K) (A D : smat) (r : smat * smat) : Prop :=
      wf K (fst r) /\ sm_rows K (fst r) = sm_rows K A /\ sm_cols K (fst r) = sm_cols K A /\
      (forall i j, mat_entry K (fst r) i j = op (mat_entry K A i j) (mat_entry K D i j)) /\
      wf K (snd r) /\ sm_rows K (snd r) = sm_rows K D /\ sm_cols K (snd r) = sm_cols K D /\
      (forall i j, mat_entry K (snd r) i j = mat_entry K D i j).

    Lemma zero_scale (A : smat) i j : sm_scale K A = 0 -> mat_entry K A i j = 0.
    Proof. intros H. rewrite mat_entry_oget, H. ring. Qed.

    Lemma wf_zero N M : 0 < N -> 0 < M -> wf K (mkSmat K N M 1 [(0%Z, Scal K 0)]).
    Proof.
      intros HN HM. split; simpl; [repeat constructor; auto|]. constructor; [|constructor]. simpl. split; auto. lia.
    Qed.

    Lemma add_ok (A D : smat) : wf K A -> wf K D -> 0 < sm_rows K A -> 0 < sm_cols K A ->
      sm_rows K D = sm_rows K A -> sm_cols K D = sm_cols K A ->
      (small15 (sm_scale K A) = true -> sm_scale K A = 0) ->
      (small15 (sm_scale K D) = true -> sm_scale K D = 0) ->
      (near1 (sm_scale K A) = true -> sm_scale K A = 1) ->
      (near1 (sm_scale K D) = true -> sm_scale K D = 1) ->
      result_is fadd A D (add K small15 near1 A D).
    Proof.
      intros HA HD HN HM Hr Hc ZA ZD OA OD. unfold add, result_is.
      destruct (small15 (sm_scale K A)) eqn:EA; destruct (small15 (sm_scale K D)) eqn:ED; simpl.
      - split; [apply wf_zero; auto|]. repeat split; auto; try apply HD. intros i j.
        rewrite (zero_scale A), (zero_scale D) by auto. rewrite mat_entry_oget. cbn [sm_items sm_scale lookup].
        match goal with |- context [Z.eq_dec 0 ?z] => destruct (Z.eq_dec 0 z) end; simpl; ring.
      - repeat split; auto; try apply HD. intros i j. rewrite (zero_scale A) by auto.
        rewrite !mat_entry_oget. simpl. ring.
      - repeat split; auto; try apply HA; try apply HD. intros i j. rewrite (zero_scale D) by auto.
        rewrite !mat_entry_oget. simpl. ring.
      - assert (HA' : wf K (copy K A)) by (destruct A; exact HA).
        destruct (incorporate_ok K near1 (copy K A) HA' OA) as (A1 & A2 & A3 & A4 & A5).
        destruct (incorporate_ok K near1 D HD OD) as (D1 & D2 & D3 & D4 & D5).
        set (A' := incorporate_scale K near1 (copy K A)) in *. change (forall i j, mat_entry K A' i j = mat_entry K A i j) in A5. set (D' := incorporate_scale K near1 D) in *.
        destruct A1 as [A11 A12]. pose proof D1 as [D11 D12].
        rewrite D3, D4, Hr, Hc in D12. rewrite A3, A4 in A12.
        destruct (add_items_ok K (sm_rows K A) (sm_cols K A) (sm_items K D') (sm_items K A') D11 A11 D12 A12)
          as (B1 & B2 & B3).
        split; [split; simpl; auto; rewrite A3, A4; auto|].
        split; [exact A3|]. split; [exact A4|].
        split; [|split; [|split; [|split]]]; auto.
        intros i j. rewrite <- A5, <- D5. rewrite !mat_entry_oget. simpl.
        rewrite A2, D2, B3. ring.
    Qed.

    Lemma sub_ok (A D : smat) : wf K A -> wf K D -> 0 < sm_rows K A -> 0 < sm_cols K A ->
      sm_rows K D = sm_rows K A -> sm_cols K D = sm_cols K A ->
      (small15 (sm_scale K A) = true -> sm_scale K A = 0) ->
      (small15 (sm_scale K D) = true -> sm_scale K D = 0) ->
      (near1 (sm_scale K A) = true -> sm_scale K A = 1) ->
      (near1 (sm_scale K D) = true -> sm_scale K D = 1) ->
      result_is fsub A D (sub K small15 near1 A D).
    Proof.
      intros HA HD HN HM Hr Hc ZA ZD OA OD. unfold sub, result_is.
      destruct (small15 (sm_scale K A)) eqn:EA; destruct (small15 (sm_scale K D)) eqn:ED; simpl.
      - split; [apply wf_zero; auto|]. repeat split; auto; try apply HD. intros i j.
        rewrite (zero_scale A), (zero_scale D) by auto. rewrite mat_entry_oget. cbn [sm_items sm_scale lookup].
        match goal with |- context [Z.eq_dec 0 ?z] => destruct (Z.eq_dec 0 z) end; simpl; ring.
      - repeat split; auto; try apply HD. intros i j. rewrite (zero_scale A) by auto.
        rewrite !mat_entry_oget. simpl. ring.
      - repeat split; auto; try apply HA; try apply HD. intros i j. rewrite (zero_scale D) by auto.
        rewrite !mat_entry_oget. simpl. ring.
      - assert (HA' : wf K (copy K A)) by (destruct A; exact HA).
        destruct (incorporate_ok K near1 (copy K A) HA' OA) as (A1 & A2 & A3 & A4 & A5).
        destruct (incorporate_ok K near1 D HD OD) as (D1 & D2 & D3 & D4 & D5).
        set (A' := incorporate_scale K near1 (copy K A)) in *. change (forall i j, mat_entry K A' i j = mat_entry K A i j) in A5. set (D' := incorporate_scale K near1 D) in *.
        destruct A1 as [A11 A12]. pose proof D1 as [D11 D12].
        rewrite D3, D4, Hr, Hc in D12. rewrite A3, A4 in A12.
        destruct (sub_items_ok K (sm_rows K A) (sm_cols K A) (sm_items K D') (sm_items K A') D11 A11 D12 A12)
          as (B1 & B2 & B3).
        split; [split; simpl; auto; rewrite A3, A4; auto|].
        split; [exact A3|]. split; [exact A4|].
        split; [|split; [|split; [|split]]]; auto.
        intros i j. rewrite <- A5, <- D5. rewrite !mat_entry_oget. simpl.
        rewrite A2, D2, B3. ring.
    Qed.

    Lemma iadd_ok (A D : smat) : wf K A -> wf K D ->
      sm_rows K D = sm_rows K A -> sm_cols K D = sm_cols K A ->
      (small16 (sm_scale K A) = true -> sm_scale K A = 0) ->
      (small16 (sm_scale K D) = true -> sm_scale K D = 0) ->
      (near1 (sm_scale K A) = true -> sm_scale K A = 1) ->
      (near1 (sm_scale K D) = true -> sm_scale K D = 1) ->
      result_is fadd A D (iadd K small16 near1 A D).
    Proof.
      intros HA HD Hr Hc ZA ZD OA OD. unfold iadd, result_is.
      destruct (small16 (sm_scale K D)) eqn:ED; simpl.
      { repeat split; auto; try apply HA; try apply HD. intros. rewrite (zero_scale D) by auto. ring. }
      destruct (small16 (sm_scale K A)) eqn:EA; simpl.
      { destruct HD as [D1 D2]. rewrite Hr, Hc in D2.
        destruct (copy_items_ok K (sm_rows K A) (sm_cols K A) (sm_items K D) [] D1 (NoDup_nil _) D2 (Forall_nil _)) as (B1 & B2 & B3).
        repeat split; auto; [|rewrite Hr, Hc; auto]. intros i j. rewrite (zero_scale A) by auto.
        rewrite !mat_entry_oget. simpl. rewrite B3. simpl.
        destruct (lookup K (sm_items K D) _); simpl; ring. }
      destruct (incorporate_ok K near1 A HA OA) as (A1 & A2 & A3 & A4 & A5).
      destruct (incorporate_ok K near1 D HD OD) as (D1 & D2 & D3 & D4 & D5).
      set (A' := incorporate_scale K near1 A) in *. set (D' := incorporate_scale K near1 D) in *.
      destruct A1 as [A11 A12]. pose proof D1 as [D11 D12].
      rewrite D3, D4, Hr, Hc in D12. rewrite A3, A4 in A12.
      destruct (add_items_ok K (sm_rows K A) (sm_cols K A) (sm_items K D') (sm_items K A') D11 A11 D12 A12)
          as (B1 & B2 & B3).
      split; [split; simpl; auto; rewrite A3, A4; auto|].
      split; [exact A3|]. split; [exact A4|].
      split; [|split; [|split; [|split]]]; auto.
      intros i j. rewrite <- A5, <- D5. rewrite !mat_entry_oget. simpl.
      rewrite A2, D2, B3. ring.
    Qed.

    Lemma isub_ok (A D : smat) : wf K A -> wf K D ->
      sm_rows K D = sm_rows K A -> sm_cols K D = sm_cols K A ->
      (small16 (sm_scale K A) = true -> sm_scale K A = 0) ->
      (small16 (sm_scale K D) = true -> sm_scale K D = 0) ->
      (near1 (sm_scale K A) = true -> sm_scale K A = 1) ->
      (near1 (sm_scale K D) = true -> sm_scale K D = 1) ->
      result_is fsub A D (isub K small16 near1 A D).
    Proof.
      intros HA HD Hr Hc ZA ZD OA OD. unfold isub, result_is.
      destruct (small16 (sm_scale K D)) eqn:ED; simpl.
      { repeat split; auto; try apply HA; try apply HD. intros. rewrite (zero_scale D) by auto. ring. }
      destruct (small16 (sm_scale K A)) eqn:EA; simpl.
      { destruct HD as [D1 D2]. rewrite Hr, Hc in D2.
        destruct (copy_items_ok K (sm_rows K A) (sm_cols K A) (sm_items K D) [] D1 (NoDup_nil _) D2 (Forall_nil _)) as (B1 & B2 & B3).
        repeat split; auto; [|rewrite Hr, Hc; auto]. intros i j. rewrite (zero_scale A) by auto.
        rewrite !mat_entry_oget. simpl. rewrite B3. simpl.
        destruct (lookup K (sm_items K D) _); simpl; ring. }
      destruct (incorporate_ok K near1 A HA OA) as (A1 & A2 & A3 & A4 & A5).
      destruct (incorporate_ok K near1 D HD OD) as (D1 & D2 & D3 & D4 & D5).
      set (A' := incorporate_scale K near1 A) in *. set (D' := incorporate_scale K near1 D) in *.
      destruct A1 as [A11 A12]. pose proof D1 as [D11 D12].
      rewrite D3, D4, Hr, Hc in D12. rewrite A3, A4 in A12.
      destruct (sub_items_ok K (sm_rows K A) (sm_cols K A) (sm_items K D') (sm_items K A') D11 A11 D12 A12)
          as (B1 & B2 & B3).
      split; [split; simpl; auto; rewrite A3, A4; auto|].
      split; [exact A3|]. split; [exact A4|].
      split; [|split; [|split; [|split]]]; auto.
      intros i j. rewrite <- A5, <- D5. rewrite !mat_entry_oget. simpl.
      rewrite A2, D2, B3. ring.
    Qed.

    Lemma iadd_self_ok (A : smat) : wf K A ->
      (small16 (sm_scale K A) = true -> sm_scale K A = 0) ->
      (near1 (sm_scale K A) = true -> sm_scale K A = 1) ->
      forall i j, mat_entry K (iadd_self K small16 near1 A) i j = mat_entry K A i j + mat_entry K A i j.
    Proof.
      intros HA ZA OA i j. unfold iadd_self. destruct (small16 (sm_scale K A)) eqn:E.
      - rewrite (zero_scale A) by auto. ring.
      - destruct (incorporate_ok K near1 A HA OA) as (A1 & A2 & A3 & A4 & A5).
        rewrite <- (A5 i j). rewrite !mat_entry_oget. simpl.
        rewrite (lookup_map K (fun d => dbin K fadd d d)).
        destruct (lookup K _ _); simpl; [rewrite dget_bin|]; ring.
    Qed.
  End Tol.
End P.
