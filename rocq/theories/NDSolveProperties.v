(** NDSolveProperties.v -- C65: the solvers for systems with several non-diagonal axes. *)
From Coq Require Import Arith ZArith List Lia Bool QArith Qcanon.
From Verif Require Import Base Fld Witness SolversModel SolversSpec SparseModel SparseSpec TPSpec
  MDSolveProofs2 MDSolveModel MDSolveSpec NDSolveModel NDSolveSpec NDSolveProofs NDSolveProofs2 MDSolveProperties.
Import ListNotations.
Local Open Scope nat_scope.

(** the row-major number is a numbering of the unknowns *)
Theorem C65_numbering : forall ds,
  (forall idx, within ds idx -> flat ds idx < prod ds /\ unflat ds (flat ds idx) = idx) /\
  (forall k, k < prod ds -> within ds (unflat ds k) /\ flat ds (unflat ds k) = k).
Proof.
  intros ds. split.
  - intros idx H. split; [apply flat_lt; auto | apply unflat_flat; auto].
  - intros k H. split; [apply unflat_within; auto | apply flat_unflat; auto].
Qed.
Print Assumptions C65_numbering.

(** Solver2D, Solver3D, SolverND: every call of one object whose calls so far had constraints
    for the same unknowns (with any values) solves the system; boundary values are set, no
    other entry of the array is touched *)
Theorem C65_solves : forall (K : Fld) lu_solve ds (ts : list (ndterm K)) bnd gval bcs cs,
  lu_contract K lu_solve -> nd_ok K ds ts -> bnd_ok K ds bnd bcs ->
  regular K (prod ds) (pinned K (rows_of K cs) (nd_dense K ds ts)) ->
  forall h b u,
    Forall (fun c => forall r, In r (rows_of K cs) <-> In r (rows_of K (fst (fst c)))) h ->
    let v := nd_calls K lu_solve ds bnd gval bcs (nd_new K ts) h cs b u in
    nd_solves K ds ts bcs cs v b /\
    (forall idx, bnd idx = true -> v idx = gval idx) /\
    (forall idx, bnd idx = false -> ~ within ds idx -> v idx = u idx).
Proof.
  intros K lu_solve ds ts bnd gval bcs cs HLU Hok Hb HR h b u HF v.
  destruct (calls_ok K lu_solve HLU ds ts bnd gval bcs Hok Hb (rows_of K cs) h (nd_new K ts) cs b u) as (H1 & H2 & H3); auto.
  - apply inv_new. auto.
  - intros r. tauto.
Qed.
Print Assumptions C65_solves.

(** SolverGeneric2ND without constraints: every call solves the system for every index of
    the diagonal axis, in two (N = 1) and three dimensions, for every place of that axis *)
Theorem C65_two_axes : forall (K : Fld) lu_solve diag N d0 d1 (ts : list (g2term K)),
  lu_contract K lu_solve -> g2_ok K d0 d1 ts -> (diag = None -> N = 1) ->
  (forall i, i < N -> regular K (d0 * d1) (g2_dense K d1 ts i)) ->
  forall h b u, Forall (fun c => fst (fst c) = []) h ->
  forall i r c, i < N -> r < d0 -> c < d1 ->
    g2_op K d0 d1 ts (fun i r c => g2_calls K lu_solve diag N d0 d1 ts (g2_new K) h [] b u (g2_index diag i r c)) i r c
    = b (g2_index diag i r c).
Proof.
  intros K lu_solve diag N d0 d1 ts HLU Hok HN HR h b u HF.
  apply (g2_calls_ok K lu_solve HLU diag N d0 d1 ts Hok h (g2_new K) b u HN); auto.
  left. split; reflexivity.
Qed.
Print Assumptions C65_two_axes.

(** ** examples and refutations *)
Definition nd_A : smat QcFld := mkSmat QcFld 2 2 (qc 1)
  [((-1)%Z, Scal QcFld (qc (-1))); (0%Z, Scal QcFld (qc 1)); (1%Z, Scal QcFld (qc (-1)))].
Definition nd_B : smat QcFld := mkSmat QcFld 2 2 (qc 1)
  [((-1)%Z, Scal QcFld (qc 1)); (0%Z, Scal QcFld (qc 2)); (1%Z, Scal QcFld (qc 1))].
Definition nd_I : smat QcFld := mkSmat QcFld 2 2 (qc 1) [(0%Z, Scal QcFld (qc 1))].
(** A x I + I x A: singular (constants); pinned at unknown 0 it is regular *)
Definition nd_neumann : list (ndterm QcFld) := [mkNd QcFld (qc 1) [nd_A; nd_I]; mkNd QcFld (qc 1) [nd_I; nd_A]].
(** I x B: regular *)
Definition nd_reg : list (ndterm QcFld) := [mkNd QcFld (qc 1) [nd_I; nd_B]].

Definition mat_of (l : list (list QcFld)) : nat -> nat -> QcFld := fun i j => nth j (nth i l []) (qc 0).
Definition is_inverse (n : nat) (B A : nat -> nat -> QcFld) : bool :=
  forallb (fun q => qeqb (fsum n (fun k => fmul (B (fst q) k) (A k (snd q)))) (if fst q =? snd q then f1 else f0) &&
                    qeqb (fsum n (fun k => fmul (A (fst q) k) (B k (snd q)))) (if fst q =? snd q then f1 else f0))
    (list_prod (seq 0 n) (seq 0 n)).
Lemma is_inverse_spec n B A : is_inverse n B A = true -> forall i j, i < n -> j < n ->
  fsum n (fun k => fmul (B i k) (A k j)) = (if i =? j then f1 else f0) /\
  fsum n (fun k => fmul (A i k) (B k j)) = (if i =? j then f1 else f0).
Proof.
  intros H i j Hi Hj. unfold is_inverse in H. rewrite forallb_forall in H.
  specialize (H (i, j)). cbn [fst snd] in H. rewrite in_prod_iff, !in_seq in H.
  specialize (H ltac:(lia)). apply andb_true_iff in H as [H1 H2]. split; apply qeqb_true; auto.
Qed.
Lemma lu_value lu_solve n A B b i : lu_contract QcFld lu_solve -> is_inverse n B A = true -> i < n ->
  lu_solve n A b i = fsum n (fun k => fmul (B i k) (b k)).
Proof.
  intros HLU HI Hi. assert (HR : regular QcFld n A) by (exists B; apply is_inverse_spec; auto).
  assert (HS := proj1 (HLU n A b) HR). set (x := lu_solve n A b) in *.
  transitivity (fsum n (fun k => fmul (B i k) (fsum n (fun j => fmul (A k j) (x j))))).
  2:{ apply fsum_ext. intros k Hk. f_equal. apply HS. auto. }
  transitivity (fsum n (fun j => if j =? i then x j else f0)).
  { rewrite fsum_delta, (proj2 (Nat.ltb_lt _ _) Hi). reflexivity. }
  transitivity (fsum n (fun j => fsum n (fun k => fmul (fmul (B i k) (A k j)) (x j)))).
  - apply fsum_ext. intros j Hj. rewrite fsum_scal_r. rewrite (proj1 (is_inverse_spec n B A HI i j Hi Hj)).
    rewrite (Nat.eqb_sym i j). destruct (j =? i).
    + symmetry. apply (Ring_theory.Rmul_1_l (fringlaws QcFld)).
    + symmetry. exact (fmul_0_l QcFld (x j)).
  - rewrite fsum_swap. apply fsum_ext. intros k Hk. rewrite <- fsum_scal. apply fsum_ext. intros j Hj.
    symmetry. apply (Ring_theory.Rmul_assoc (fringlaws QcFld)).
Qed.

Definition neumann_inv : nat -> nat -> QcFld := mat_of
  [[qc 1; qc 0; qc 0; qc 0];
   [qc 1; qcf 3 4; qcf 1 4; qcf 1 2];
   [qc 1; qcf 1 4; qcf 3 4; qcf 1 2];
   [qc 1; qcf 1 2; qcf 1 2; qc 1]].
Definition reg_inv : nat -> nat -> QcFld := mat_of
  [[qcf 2 3; qcf (-1) 3; qc 0; qc 0];
   [qcf (-1) 3; qcf 2 3; qc 0; qc 0];
   [qc 0; qc 0; qcf 2 3; qcf (-1) 3];
   [qc 0; qc 0; qcf (-1) 3; qcf 2 3]].

(** a singular problem with one constraint, with boundary values in the array *)
Example C65_solves_inhabited :
  nd_ok QcFld [2; 2] nd_neumann /\
  bnd_ok QcFld [2; 2] (fun idx => match idx with [i; j] => (i =? 2) || (j =? 2) | _ => false end)
    [fun u idx => match idx with [i; j] => u [i; 2] | _ => qc 0 end] /\
  regular QcFld (prod [2; 2]) (pinned QcFld (rows_of QcFld [(0, qc 7)]) (nd_dense QcFld [2; 2] nd_neumann)) /\
  ~ regular QcFld (prod [2; 2]) (nd_dense QcFld [2; 2] nd_neumann).
Proof.
  assert (E : forall r, r < 4 -> fsum 4 (fun k => nd_dense QcFld [2; 2] nd_neumann r k) = qc 0).
  { intros r Hr. destruct r as [|[|[|[|]]]]; try lia; apply qeqb_true; vm_compute; reflexivity. }
  split; [|split; [|split]].
  - split; [discriminate|]. split; [cbn; lia|]. intros t [<-|[<-|[]]]; repeat constructor.
  - split.
    + intros idx H. inversion H as [|d i ds idx' H1 H2]; subst. inversion H2 as [|d j ds idx'' H3 H4]; subst.
      inversion H4; subst. destruct (Nat.eqb_spec i 2); [lia|]. destruct (Nat.eqb_spec j 2); [lia|reflexivity].
    + intros bc [<-|[]] u v H idx. destruct idx as [|i [|j [|]]]; auto. apply H. rewrite Nat.eqb_refl. apply orb_true_r.
  - exists neumann_inv. apply is_inverse_spec. vm_compute. reflexivity.
  - intros [B HB]. change (prod [2; 2]) with 4 in HB.
    (* B A 1 = 0 but B A = 1 *)
    assert (Z : fsum 4 (fun j => fsum 4 (fun k => fmul (B 0 k) (nd_dense QcFld [2; 2] nd_neumann k j))) = qc 0).
    { rewrite fsum_swap. transitivity (fsum 4 (fun _ : nat => qc 0)); [|apply qeqb_true; vm_compute; reflexivity].
      apply fsum_ext. intros k Hk. rewrite fsum_scal, E by auto.
      generalize (B 0 k). intros x. transitivity (fmul (qc 0) x); [apply (Ring_theory.Rmul_comm (fringlaws QcFld))|].
      exact (fmul_0_l QcFld x). }
    assert (O : fsum 4 (fun j => fsum 4 (fun k => fmul (B 0 k) (nd_dense QcFld [2; 2] nd_neumann k j))) = qc 1).
    { transitivity (fsum 4 (fun j => if j =? 0 then qc 1 else qc 0)); [|apply qeqb_true; vm_compute; reflexivity].
      apply fsum_ext. intros j Hj. rewrite (proj1 (HB 0 j ltac:(cbn; lia) Hj)). rewrite (Nat.eqb_sym 0 j).
      destruct (j =? 0); [apply qeqb_true; vm_compute; reflexivity|reflexivity]. }
    rewrite Z in O. revert O. apply qeqb_false. vm_compute. reflexivity.
Qed.

Definition g2_ts (N : nat) : list (g2term QcFld) :=
  [mkG2t QcFld (fun i => qc (1 + Z.of_nat i)) nd_I nd_B].
Example C65_two_axes_inhabited :
  g2_ok QcFld 2 2 (g2_ts 3) /\ forall i, i < 3 -> regular QcFld (2 * 2) (g2_dense QcFld 2 (g2_ts 3) i).
Proof.
  split; [split; [discriminate|]; split; [lia|]; split; [lia|]; intros t [<-|[]]; repeat split|].
  intros i Hi. exists (fun r c => fmul (qcf 1 (Z.to_pos (1 + Z.of_nat i))) (reg_inv r c)).
  destruct i as [|[|[|]]]; try lia; apply is_inverse_spec; vm_compute; reflexivity.
Qed.

Definition nb : list nat -> bool := fun _ => false.
Definition nz : list nat -> QcFld := fun _ => qc 0.
Definition n1 : list nat -> QcFld := fun _ => qc 1.

(** the factors of the first call are used for ever: a constraint that comes later is not
    imposed (the unknown does not get the value), and one that is dropped stays *)
Theorem C65_constraint_history_refuted : exists (ts : list (ndterm QcFld)) ds cs,
  nd_ok QcFld ds ts /\ regular QcFld (prod ds) (nd_dense QcFld ds ts) /\
  regular QcFld (prod ds) (pinned QcFld (rows_of QcFld cs) (nd_dense QcFld ds ts)) /\
  forall lu_solve, lu_contract QcFld lu_solve ->
    ~ nd_solves QcFld ds ts [] cs (nd_calls QcFld lu_solve ds nb nz [] (nd_new QcFld ts) [([], n1, nz)] cs n1 nz) n1 /\
    ~ nd_solves QcFld ds ts [] [] (nd_calls QcFld lu_solve ds nb nz [] (nd_new QcFld ts) [(cs, n1, nz)] [] n1 nz) n1.
Proof.
  exists nd_reg, [2; 2], [(0, qc 5)].
  assert (I0 : is_inverse 4 reg_inv (nd_mat QcFld nd_reg) = true) by (vm_compute; reflexivity).
  set (pin_inv := mat_of
    [[qc 1; qc 0; qc 0; qc 0]; [qcf (-1) 2; qcf 1 2; qc 0; qc 0];
     [qc 0; qc 0; qcf 2 3; qcf (-1) 3]; [qc 0; qc 0; qcf (-1) 3; qcf 2 3]]).
  assert (I1 : is_inverse 4 pin_inv (pin_row QcFld (nd_mat QcFld nd_reg) 0) = true) by (vm_compute; reflexivity).
  split; [split; [discriminate|]; split; [cbn; lia|]; intros t [<-|[]]; repeat constructor|].
  split; [exists reg_inv; apply is_inverse_spec; vm_compute; reflexivity|].
  split; [exists pin_inv; apply is_inverse_spec; vm_compute; reflexivity|].
  intros lu_solve HLU. split.
  - intros [_ H]. specialize (H [0; 0] [] (qc 5) [] ltac:(repeat constructor) eq_refl ltac:(intros [])).
    set (v := nd_calls _ _ _ _ _ _ _ _ _ _ _) in H.
    assert (V0 : v [0; 0] = lu_solve 4 (nd_mat QcFld nd_reg) (upd (flatten QcFld [2; 2] n1) 0 (qc 5)) 0) by reflexivity.
    rewrite V0, (lu_value lu_solve 4 _ _ _ 0 HLU I0) in H by lia. revert H. apply qeqb_false. vm_compute. reflexivity.
  - intros [H _]. specialize (H [0; 0] ltac:(repeat constructor) ltac:(intros [])). revert H.
    set (v := nd_calls _ _ _ _ _ _ _ _ _ _ _).
    assert (V0 : v [0; 0] = qc 1).
    { change (v [0; 0]) with (lu_solve 4 (pin_row QcFld (nd_mat QcFld nd_reg) 0) (flatten QcFld [2; 2] n1) 0).
      rewrite (lu_value lu_solve 4 _ _ _ 0 HLU I1) by lia. apply qeqb_true. vm_compute. reflexivity. }
    assert (V1 : v [0; 1] = qc 0).
    { change (v [0; 1]) with (lu_solve 4 (pin_row QcFld (nd_mat QcFld nd_reg) 0) (flatten QcFld [2; 2] n1) 1).
      rewrite (lu_value lu_solve 4 _ _ _ 1 HLU I1) by lia. apply qeqb_true. vm_compute. reflexivity. }
    assert (V2 : v [1; 0] = qcf 1 3).
    { change (v [1; 0]) with (lu_solve 4 (pin_row QcFld (nd_mat QcFld nd_reg) 0) (flatten QcFld [2; 2] n1) 2).
      rewrite (lu_value lu_solve 4 _ _ _ 2 HLU I1) by lia. apply qeqb_true. vm_compute. reflexivity. }
    assert (V3 : v [1; 1] = qcf 1 3).
    { change (v [1; 1]) with (lu_solve 4 (pin_row QcFld (nd_mat QcFld nd_reg) 0) (flatten QcFld [2; 2] n1) 3).
      rewrite (lu_value lu_solve 4 _ _ _ 3 HLU I1) by lia. apply qeqb_true. vm_compute. reflexivity. }
    clearbody v. intros H.
    assert (E : nd_op QcFld nd_reg [] v [0; 0] = nd_op QcFld nd_reg []
       (fun idx => match idx with [0; 0] => qc 1 | [0; 1] => qc 0 | _ => qcf 1 3 end) [0; 0]).
    { unfold nd_op. f_equal. apply lsum_ext. intros t [<-|[]]. f_equal.
      apply (kron_ext QcFld [2; 2]); [repeat constructor|]. intros jdx Hj.
      inversion Hj as [|d i ds idx' H1 H2]; subst. inversion H2 as [|d j ds idx'' H3 H4]; subst. inversion H4; subst.
      destruct i as [|[|]]; try lia; destruct j as [|[|]]; try lia; auto. }
    rewrite E in H. revert H. apply qeqb_false. vm_compute. reflexivity.
Qed.
Print Assumptions C65_constraint_history_refuted.

(** SolverGeneric2ND with a constraint: [b[row] = val] overwrites a whole row of the right
    hand side (a plane in three dimensions), so the other equations of that row are wrong
    already for the first call -- in three dimensions even those of other wavenumbers *)
Theorem C65_two_axes_constraint_refuted : forall lu_solve, lu_contract QcFld lu_solve ->
  (let v := g2_calls QcFld lu_solve None 1 2 2 (g2_ts 1) (g2_new QcFld) [] [(0, qc 0)] n1 nz in
   g2_op QcFld 2 2 (g2_ts 1) (fun i r c => v [r; c]) 0 0 1 <> n1 [0; 1]) /\
  (let v := g2_calls QcFld lu_solve (Some 1) 2 2 2 (g2_ts 2) (g2_new QcFld) [] [(0, qc 0)] n1 nz in
   g2_op QcFld 2 2 (g2_ts 2) (fun i r c => v [r; i; c]) 1 0 0 <> n1 [0; 1; 0]).
Proof.
  intros lu_solve HLU. split; intros v.
  - set (M := fun i : nat => if i =? 0 then pin_row QcFld (g2_diags QcFld (g2_ts 1) 0) 0 else g2_diags QcFld (g2_ts 1) i).
    set (bs := fun k : nat => set_slab QcFld n1 0 (qc 0) (g2_index None 0 (k / 2) (k mod 2))).
    set (pin_inv := mat_of
      [[qc 1; qc 0; qc 0; qc 0]; [qcf (-1) 2; qcf 1 2; qc 0; qc 0];
       [qc 0; qc 0; qcf 2 3; qcf (-1) 3]; [qc 0; qc 0; qcf (-1) 3; qcf 2 3]]).
    assert (I1 : is_inverse 4 pin_inv (M 0) = true) by (vm_compute; reflexivity).
    assert (V : forall r c, r < 2 -> c < 2 -> v [r; c] = fsum 4 (fun k => fmul (pin_inv (r * 2 + c) k) (bs k))).
    { intros r c Hr Hc. transitivity (lu_solve 4 (M 0) bs (r * 2 + c)).
      - destruct r as [|[|]]; try lia; destruct c as [|[|]]; try lia; reflexivity.
      - apply lu_value; auto; lia. }
    assert (E : g2_op QcFld 2 2 (g2_ts 1) (fun i r c => v [r; c]) 0 0 1
      = g2_op QcFld 2 2 (g2_ts 1) (fun i r c => fsum 4 (fun k => fmul (pin_inv (r * 2 + c) k) (bs k))) 0 0 1).
    { apply lsum_ext. intros t _. f_equal. apply fsum_ext. intros r Hr. apply fsum_ext. intros c Hc. f_equal. apply V; auto. }
    rewrite E. apply qeqb_false. vm_compute. reflexivity.
  - set (M := fun i : nat => if i =? 0 then pin_row QcFld (g2_diags QcFld (g2_ts 2) 0) 0 else g2_diags QcFld (g2_ts 2) i).
    set (bs := fun k : nat => set_slab QcFld n1 0 (qc 0) (g2_index (Some 1) 1 (k / 2) (k mod 2))).
    set (inv1 := fun r c => fmul (qcf 1 2) (reg_inv r c)).
    assert (I1 : is_inverse 4 inv1 (M 1) = true) by (vm_compute; reflexivity).
    assert (V : forall r c, r < 2 -> c < 2 -> v [r; 1; c] = fsum 4 (fun k => fmul (inv1 (r * 2 + c) k) (bs k))).
    { intros r c Hr Hc. transitivity (lu_solve 4 (M 1) bs (r * 2 + c)).
      - destruct r as [|[|]]; try lia; destruct c as [|[|]]; try lia; reflexivity.
      - apply lu_value; auto; lia. }
    assert (E : g2_op QcFld 2 2 (g2_ts 2) (fun i r c => v [r; i; c]) 1 0 0
      = g2_op QcFld 2 2 (g2_ts 2) (fun i r c => fsum 4 (fun k => fmul (inv1 (r * 2 + c) k) (bs k))) 1 0 0).
    { apply lsum_ext. intros t _. f_equal. apply fsum_ext. intros r Hr. apply fsum_ext. intros c Hc. f_equal. apply V; auto. }
    rewrite E. apply qeqb_false. vm_compute. reflexivity.
Qed.
Print Assumptions C65_two_axes_constraint_refuted.
