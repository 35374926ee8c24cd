(** SolversProperties.v -- properties C01, C02, C03, C04, C05, C07.

    [dia_entry offs D] is the dense matrix with diagonals [offs] stored in [D];
    [solves], [leading_nonsingular], [solves_pinned0] are in SolversSpec.v;
    [new_solver] builds an object of the given class and [call] is its __call__. *)
From Coq Require Import Arith ZArith List Bool QArith Qcanon Lia.
From Verif Require Import Base Fld SolversModel SolversSpec SolversProofs SolversProofs2
  SolversProofs3 SolversProofs4 SolversProofs5 Dominant Witness.
Import ListNotations.
Local Open Scope nat_scope.

(** ** C01 *)
Theorem C01_DiagMA_solves : forall (K : Fld) n (D : nat -> nat -> K) b,
  leading_nonsingular n (dia_entry [0]%Z D) ->
  solves n (dia_entry [0]%Z D) (snd (call K (new_solver K KDiagMA n D) None b)) b.
Proof. intros. apply (fresh_call_solves K KDiagMA); auto; [discriminate | simpl; lia]. Qed.
Print Assumptions C01_DiagMA_solves.

Theorem C01_TDMA_solves : forall (K : Fld) n (D : nat -> nat -> K) b, 2 <= n ->
  leading_nonsingular n (dia_entry [-2; 0; 2]%Z D) ->
  solves n (dia_entry [-2; 0; 2]%Z D) (snd (call K (new_solver K KTDMA n D) None b)) b.
Proof. intros. apply (fresh_call_solves K KTDMA); auto; discriminate. Qed.
Print Assumptions C01_TDMA_solves.

Theorem C01_TDMA_O_solves : forall (K : Fld) n (D : nat -> nat -> K) b, 1 <= n ->
  leading_nonsingular n (dia_entry [-1; 0; 1]%Z D) ->
  solves n (dia_entry [-1; 0; 1]%Z D) (snd (call K (new_solver K KTDMA_O n D) None b)) b.
Proof. intros. apply (fresh_call_solves K KTDMA_O); auto; discriminate. Qed.
Print Assumptions C01_TDMA_O_solves.

Theorem C01_FDMA_solves : forall (K : Fld) n (D : nat -> nat -> K) b, 4 <= n ->
  leading_nonsingular n (dia_entry [-2; 0; 2; 4]%Z D) ->
  solves n (dia_entry [-2; 0; 2; 4]%Z D) (snd (call K (new_solver K KFDMA n D) None b)) b.
Proof. intros. apply (fresh_call_solves K KFDMA); auto; discriminate. Qed.
Print Assumptions C01_FDMA_solves.

Theorem C01_TwoDMA_solves : forall (K : Fld) n (D : nat -> nat -> K) b, 2 <= n ->
  leading_nonsingular n (dia_entry [0; 2]%Z D) ->
  solves n (dia_entry [0; 2]%Z D) (snd (call K (new_solver K KTwoDMA n D) None b)) b.
Proof. intros. apply (fresh_call_solves K KTwoDMA); auto; discriminate. Qed.
Print Assumptions C01_TwoDMA_solves.

(** the hypotheses are met, e.g. by a 7 x 7 matrix with three different diagonals
    (TDMA, TDMA_O), four (FDMA), two (TwoDMA) and one (DiagMA) *)
Definition ex_data : nat -> nat -> QcFld := fun k j =>
  qc (match k with 0 => 2%Z | 1 => (11 + Z.of_nat j)%Z | 2 => 3%Z | _ => 1%Z end).
Definition ex_data_u : nat -> nat -> QcFld := fun k j =>
  qc (match k with 0 => (11 + Z.of_nat j)%Z | 1 => 2%Z | _ => 1%Z end).
Definition ex_data_p : nat -> nat -> QcFld := fun k j =>
  qc (match k with 2 => (41 + Z.of_nat j)%Z | _ => (1 + Z.of_nat k)%Z end).

Definition dominantb (n : nat) (A : nat -> nat -> QcFld) : bool :=
  all_below n (fun i =>
    match Qccompare (fsum (K := QcFld) n (fun j => if j =? i then f0 else Qcabs.Qcabs (A i j)))
                    (Qcabs.Qcabs (A i i)) with Lt => true | _ => false end).
Lemma dominantb_spec n A : dominantb n A = true -> leading_nonsingular n A.
Proof.
  intros H. apply dominant_nonsingular. intros i Hi.
  apply (all_below_spec _ _ H) in Hi. apply Qclt_alt.
  destruct (Qccompare _ _); auto; discriminate.
Qed.

Example C01_TDMA_inhabited : leading_nonsingular 7 (dia_entry [-2; 0; 2]%Z ex_data).
Proof. apply dominantb_spec. vm_compute. reflexivity. Qed.
Example C01_TDMA_O_inhabited : leading_nonsingular 7 (dia_entry [-1; 0; 1]%Z ex_data).
Proof. apply dominantb_spec. vm_compute. reflexivity. Qed.
Example C01_FDMA_inhabited : leading_nonsingular 7 (dia_entry [-2; 0; 2; 4]%Z ex_data).
Proof. apply dominantb_spec. vm_compute. reflexivity. Qed.
Example C01_TwoDMA_inhabited : leading_nonsingular 7 (dia_entry [0; 2]%Z ex_data_u).
Proof. apply dominantb_spec. vm_compute. reflexivity. Qed.
Example C01_DiagMA_inhabited : leading_nonsingular 7 (dia_entry [0]%Z ex_data_u).
Proof. apply dominantb_spec. vm_compute. reflexivity. Qed.

(** ** C02 *)
Theorem C02_PDMA_solves : forall (K : Fld) n (D : nat -> nat -> K) b, 4 <= n ->
  leading_nonsingular n (dia_entry [-4; -2; 0; 2; 4]%Z D) ->
  solves n (dia_entry [-4; -2; 0; 2; 4]%Z D) (snd (call K (new_solver K KPDMA n D) None b)) b.
Proof. intros. apply (fresh_call_solves K KPDMA); auto; discriminate. Qed.
Print Assumptions C02_PDMA_solves.

Theorem C02_HeptaDMA_solves : forall (K : Fld) n (D : nat -> nat -> K) b, 8 <= n ->
  leading_nonsingular n (dia_entry [-4; -2; 0; 2; 4; 6; 8]%Z D) ->
  solves n (dia_entry [-4; -2; 0; 2; 4; 6; 8]%Z D)
    (snd (call K (new_solver K KHeptaDMA n D) None b)) b.
Proof. intros. apply (fresh_call_solves K KHeptaDMA); auto; discriminate. Qed.
Print Assumptions C02_HeptaDMA_solves.

Example C02_PDMA_inhabited : leading_nonsingular 9 (dia_entry [-4; -2; 0; 2; 4]%Z ex_data_p).
Proof. apply dominantb_spec. vm_compute. reflexivity. Qed.
Example C02_HeptaDMA_inhabited :
  leading_nonsingular 12 (dia_entry [-4; -2; 0; 2; 4; 6; 8]%Z ex_data_p).
Proof. apply dominantb_spec. vm_compute. reflexivity. Qed.

(** ** C03: ThreeDMA reads its second super-diagonal from the first one *)
Theorem C03_ThreeDMA_refuted : exists n (D : nat -> nat -> QcFld) b,
  4 <= n /\ leading_nonsingular n (dia_entry [0; 2; 4]%Z D) /\
  ~ solves n (dia_entry [0; 2; 4]%Z D) (snd (call QcFld (new_solver QcFld KThreeDMA n D) None b)) b.
Proof.
  exists 5, ex_data_u, (fun _ => qc 1). split; [lia|]. split.
  - apply dominantb_spec. vm_compute. reflexivity.
  - apply solvesb_false. vm_compute. reflexivity.
Qed.
Print Assumptions C03_ThreeDMA_refuted.

(** it is right exactly on matrices whose two super-diagonals share their tail *)
Theorem C03_ThreeDMA_partial : forall (K : Fld) n (D : nat -> nat -> K) b, 4 <= n ->
  leading_nonsingular n (dia_entry [0; 2; 4]%Z D) ->
  (forall j, 4 <= j < n -> D 2 j = D 1 j) ->
  solves n (dia_entry [0; 2; 4]%Z D) (snd (call K (new_solver K KThreeDMA n D) None b)) b.
Proof. intros. apply (threedma_partial K); auto. Qed.
Print Assumptions C03_ThreeDMA_partial.

(** reading the third diagonal from its own storage row repairs the solver *)
Theorem C03_ThreeDMA_repaired : forall (K : Fld) n (D : nat -> nat -> K) b, 4 <= n ->
  leading_nonsingular n (dia_entry [0; 2; 4]%Z D) ->
  solves n (dia_entry [0; 2; 4]%Z D) (threedma_solve_fixed K n D b) b.
Proof.
  intros. apply (threedma_fixed_correct K); auto.
  apply (upper_diag K n KThreeDMA); auto.
Qed.
Print Assumptions C03_ThreeDMA_repaired.

Example C03_partial_inhabited :
  leading_nonsingular 7 (dia_entry [0; 2; 4]%Z (fun k j => qc (match k with 0 => 15%Z | _ => Z.of_nat j end) : QcFld))
  /\ (forall j, 4 <= j < 7 -> qc (Z.of_nat j) = qc (Z.of_nat j)).
Proof. split; auto. apply dominantb_spec. vm_compute. reflexivity. Qed.

(** ** C04: reuse of one solver object, any class, any history of right hand sides *)
Theorem C04_reuse : forall (K : Fld) kind n (D : nat -> nat -> K) (bs : list (nat -> K)),
  calls K (new_solver K kind n D) (map (fun b => (None, b)) bs)
  = map (fun b => snd (call K (new_solver K kind n D) None b)) bs.
Proof. exact calls_none. Qed.
Print Assumptions C04_reuse.

Example C04_nontrivial :
  length (calls QcFld (new_solver QcFld KTDMA 5 ex_data)
    [(None, fun _ => qc 1); (None, fun i => qc (Z.of_nat i)); (None, fun _ => qc 2)]) = 3.
Proof. reflexivity. Qed.

(** ** C05: constraints *)
Theorem C05_pinned : forall (K : Fld) kind n (D : nat -> nat -> K) val b,
  (kind = KDiagMA \/ kind = KTDMA \/ kind = KFDMA \/ kind = KTwoDMA) ->
  0 < n -> kind_min kind <= n ->
  leading_nonsingular n (ident_row0 (dia_entry (kind_offsets kind) D)) ->
  solves_pinned0 n (dia_entry (kind_offsets kind) D) val
    (snd (call K (new_solver K kind n D) (Some val) b)) b.
Proof. exact pinned_call. Qed.
Print Assumptions C05_pinned.

(** the same for every call of a history of constrained calls of one object *)
Theorem C05_pinned_history : forall (K : Fld) kind n (D : nat -> nat -> K) (h : list (K * (nat -> K))),
  (kind = KDiagMA \/ kind = KTDMA \/ kind = KFDMA \/ kind = KTwoDMA) ->
  0 < n -> kind_min kind <= n ->
  leading_nonsingular n (ident_row0 (dia_entry (kind_offsets kind) D)) ->
  Forall2 (fun cb x => solves_pinned0 n (dia_entry (kind_offsets kind) D) (fst cb) x (snd cb)) h
    (calls K (new_solver K kind n D) (map (fun cb => (Some (fst cb), snd cb)) h)).
Proof.
  intros K kind n D h Hk Hn0 Hn HN. rewrite calls_some by auto.
  induction h as [|[v b] h IH]; simpl; constructor; auto.
  apply pinned_call; auto.
Qed.
Print Assumptions C05_pinned_history.

Example C05_inhabited : leading_nonsingular 7 (ident_row0 (dia_entry [-2; 0; 2]%Z ex_data)).
Proof. apply dominantb_spec. vm_compute. reflexivity. Qed.

(** PDMA: setting a constraint marks the object as factored, so LU never runs *)
Theorem C05_PDMA_refuted : exists n (D : nat -> nat -> QcFld) val b,
  4 <= n /\ leading_nonsingular n (ident_row0 (dia_entry [-4; -2; 0; 2; 4]%Z D)) /\
  ~ solves_pinned0 n (dia_entry [-4; -2; 0; 2; 4]%Z D) val
      (snd (call QcFld (new_solver QcFld KPDMA n D) (Some val) b)) b.
Proof.
  exists 6, ex_data_p, (qc 0), (fun _ => qc 1). split; [lia|]. split.
  - apply dominantb_spec. vm_compute. reflexivity.
  - intros [_ H]. specialize (H 3 ltac:(lia)). revert H. apply qeqb_false. vm_compute. reflexivity.
Qed.
Print Assumptions C05_PDMA_refuted.

Theorem C05_HeptaDMA_refuted : exists n (D : nat -> nat -> QcFld) val b,
  8 <= n /\ leading_nonsingular n (ident_row0 (dia_entry [-4; -2; 0; 2; 4; 6; 8]%Z D)) /\
  ~ solves_pinned0 n (dia_entry [-4; -2; 0; 2; 4; 6; 8]%Z D) val
      (snd (call QcFld (new_solver QcFld KHeptaDMA n D) (Some val) b)) b.
Proof.
  exists 9, ex_data_p, (qc 0), (fun _ => qc 1). split; [lia|]. split.
  - apply dominantb_spec. vm_compute. reflexivity.
  - intros [_ H]. specialize (H 3 ltac:(lia)). revert H. apply qeqb_false. vm_compute. reflexivity.
Qed.
Print Assumptions C05_HeptaDMA_refuted.

(** TDMA_O: the matrix is left unconstrained, only b[0] is overwritten *)
Theorem C05_TDMA_O_refuted : exists n (D : nat -> nat -> QcFld) val b,
  1 <= n /\ leading_nonsingular n (ident_row0 (dia_entry [-1; 0; 1]%Z D)) /\
  ~ solves_pinned0 n (dia_entry [-1; 0; 1]%Z D) val
      (snd (call QcFld (new_solver QcFld KTDMA_O n D) (Some val) b)) b.
Proof.
  exists 4, ex_data, (qc 0), (fun _ => qc 1). split; [lia|]. split.
  - apply dominantb_spec. vm_compute. reflexivity.
  - intros [H _]. revert H. apply qeqb_false. vm_compute. reflexivity.
Qed.
Print Assumptions C05_TDMA_O_refuted.

(** mixed histories: a constraint given after an unconstrained solve edits the
    factors, not the matrix *)
Theorem C05_after_unconstrained_refuted : exists n (D : nat -> nat -> QcFld) val b,
  2 <= n /\ leading_nonsingular n (ident_row0 (dia_entry [-2; 0; 2]%Z D)) /\
  ~ solves_pinned0 n (dia_entry [-2; 0; 2]%Z D) val
      (nth 1 (calls QcFld (new_solver QcFld KTDMA n D) [(None, b); (Some val, b)]) b) b.
Proof.
  exists 5, ex_data, (qc 0), (fun _ => qc 1). split; [lia|]. split.
  - apply dominantb_spec. vm_compute. reflexivity.
  - intros [_ H]. specialize (H 2 ltac:(lia)). revert H. apply qeqb_false. vm_compute. reflexivity.
Qed.
Print Assumptions C05_after_unconstrained_refuted.

(** ** C07: uniqueness, pivots *)
Theorem C07_unique : forall (K : Fld) n (A : nat -> nat -> K) x y b,
  leading_nonsingular n A -> solves n A x b -> solves n A y b -> forall i, i < n -> x i = y i.
Proof. exact nonsingular_unique. Qed.
Print Assumptions C07_unique.

(** strict diagonal dominance (over the rationals) is enough for every solver *)
Theorem C07_dominant_safe : forall n (A : nat -> nat -> QcFld),
  diag_dominant n A -> leading_nonsingular n A.
Proof. exact dominant_nonsingular. Qed.
Print Assumptions C07_dominant_safe.

(** the hypothesis of C01/C02 is exactly "no pivot of the factorisation vanishes" *)
Theorem C07_pivots_iff : forall (K : Fld) n (D : nat -> nat -> K), 8 <= n ->
  (forall i, i < n -> hepta_lu K n D 2 i <> f0) <->
  leading_nonsingular n (dia_entry [-4; -2; 0; 2; 4; 6; 8]%Z D).
Proof.
  intros K n D Hn. assert (HF := hepta_lu_fact K n D ltac:(lia)). split.
  - intros H. apply (hepta_unique K n D (hepta_lu K n D)); auto.
  - intros H. apply (hepta_pivots K n D (hepta_lu K n D)); auto.
Qed.
Print Assumptions C07_pivots_iff.

(** a tridiagonal matrix solved by TDMA and, padded with zero diagonals, by PDMA and
    HeptaDMA, gives the same vector *)
Theorem C07_TDMA_agrees_with_PDMA : forall (K : Fld) n (D D5 : nat -> nat -> K) b, 4 <= n ->
  leading_nonsingular n (dia_entry [-2; 0; 2]%Z D) ->
  (forall i j, i < n -> j < n ->
     dia_entry [-4; -2; 0; 2; 4]%Z D5 i j = dia_entry [-2; 0; 2]%Z D i j) ->
  forall i, i < n ->
    snd (call K (new_solver K KTDMA n D) None b) i
    = snd (call K (new_solver K KPDMA n D5) None b) i.
Proof.
  intros K n D D5 b Hn HN HE.
  apply (nonsingular_unique K n (dia_entry [-2; 0; 2]%Z D) _ _ b HN).
  - apply C01_TDMA_solves; auto. lia.
  - apply (solves_ext K n (dia_entry [-4; -2; 0; 2; 4]%Z D5)); auto.
    apply C02_PDMA_solves; auto.
    eapply leading_ext; [|exact HN]. intros; symmetry; auto.
Qed.
Print Assumptions C07_TDMA_agrees_with_PDMA.

Example C07_agree_inhabited :
  forall i j, i < 7 -> j < 7 ->
    dia_entry [-4; -2; 0; 2; 4]%Z (fun k => match k with 1 => ex_data 0 | 2 => ex_data 1 | 3 => ex_data 2 | _ => fun _ => f0 end) i j
    = dia_entry [-2; 0; 2]%Z ex_data i j.
Proof.
  intros i j Hi Hj. unfold dia_entry. simpl.
  repeat match goal with |- context [(?a =? ?b)%Z] => destruct (Z.eqb_spec a b); auto end; lia.
Qed.
