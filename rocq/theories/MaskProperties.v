(** MaskProperties.v -- C37: Nyquist masks of tensor product spaces. *)
From Coq Require Import Arith ZArith List Bool Lia QArith Qcanon.
From Verif Require Import Base Fld Witness FourierModel FourierProofs MaskModel MaskProofs.
Import ListNotations.
Local Open Scope nat_scope.

(** ** specification: the Nyquist modes *)
(** mode number g of the base b is its Nyquist mode: |wavenumber| = N/2 *)
Definition is_nyquist (b : axis_base) (g : nat) : Prop :=
  match b with
  | FourierC2C N => (Z.abs (2 * wavenumbers_c2c N false g) = Z.of_nat N)%Z
  | FourierR2C N => (Z.abs (2 * wavenumbers_r2c N false g) = Z.of_nat N)%Z
  | OtherBase => False
  end.
Definition modes (b : axis_base) (g : nat) : Prop :=
  match b with FourierC2C N => g < N | FourierR2C N => g < N / 2 + 1 /\ 0 < N | OtherBase => True end.
(** the multi-index idx of this rank, whose block starts at [start], has a Nyquist mode in some axis *)
Fixpoint some_nyquist (bases : list axis_base) (start idx : list nat) : Prop :=
  match bases, start, idx with
  | b :: bs, s :: ss, i :: is => is_nyquist b (s + i) \/ some_nyquist bs ss is
  | _, _, _ => False
  end.
Fixpoint in_range (bases : list axis_base) (start shape idx : list nat) : Prop :=
  match bases, start, shape, idx with
  | b :: bs, s :: ss, n :: ns, i :: is => i < n /\ modes b (s + i) /\ in_range bs ss ns is
  | [], [], [], [] => True
  | _, _, _, _ => False
  end.

Lemma base_mask_ok b g : modes b g -> match base_mask b with
  | None => ~ is_nyquist b g
  | Some m => m g = false <-> is_nyquist b g end.
Proof.
  destruct b as [N|N|]; cbn [base_mask is_nyquist modes]; intros Hg; auto.
  - unfold mask_c2c, wavenumbers_c2c. rewrite andb_false_r. cbn [andb]. rewrite fftfreq_eq by lia.
    pose proof (Nat.div_mod N 2 ltac:(lia)). pose proof (Nat.mod_upper_bound N 2 ltac:(lia)).
    pose proof (Nat.div_mod (N - 1) 2 ltac:(lia)). pose proof (Nat.mod_upper_bound (N - 1) 2 ltac:(lia)).
    destruct (Nat.eqb_spec (N mod 2) 0).
    + destruct (Nat.ltb_spec g ((N - 1) / 2 + 1)), (Nat.eqb_spec g (N / 2)); cbn [negb]; split; intros; try discriminate; try lia; reflexivity.
    + destruct (Nat.ltb_spec g ((N - 1) / 2 + 1)); lia.
  - unfold mask_r2c, wavenumbers_r2c, rfftfreq. rewrite andb_false_r. cbn [andb].
    pose proof (Nat.div_mod N 2 ltac:(lia)). pose proof (Nat.mod_upper_bound N 2 ltac:(lia)).
    destruct (Nat.eqb_spec (N mod 2) 0); [|lia].
    destruct (Nat.eqb_spec g (N / 2 + 1 - 1)); cbn [negb]; split; intros; try discriminate; try lia; reflexivity.
Qed.
Lemma mask_entry_cases bases : forall start shape idx, in_range bases start shape idx ->
  (mask_entry bases start idx = 0 /\ some_nyquist bases start idx) \/
  (mask_entry bases start idx = 1 /\ ~ some_nyquist bases start idx).
Proof.
  induction bases as [|b bs IH]; intros [|s ss] [|n ns] [|i is] H; simpl in H; try contradiction.
  - right. simpl. tauto.
  - destruct H as [Hi [Hm H]]. pose proof (base_mask_ok b (s + i) Hm) as B. cbn [mask_entry some_nyquist].
    destruct (IH ss ns is H) as [[-> H1]|[-> H1]].
    + left. split; [lia | auto].
    + destruct (base_mask b) as [m|].
      * destruct (m (s + i)).
        -- right. split; [lia|]. intros [A|A]; [apply B in A; discriminate | tauto].
        -- left. split; [lia|]. left. apply B. reflexivity.
      * right. split; [lia|]. tauto.
Qed.
Lemma ravel_ok bases : forall start shape idx, in_range bases start shape idx ->
  ravel shape idx < prod shape /\ unravel shape (ravel shape idx) = idx.
Proof.
  induction bases as [|b bs IH]; intros [|s ss] [|n ns] [|i is] H; simpl in H; try contradiction.
  - simpl. split; auto.
  - destruct H as [Hi [Hm H]]. destruct (IH ss ns is H) as [L E]. cbn [ravel unravel]. change (prod (n :: ns)) with (n * prod ns).
    split; [nia|]. f_equal.
    + rewrite Nat.div_add_l by lia. rewrite Nat.div_small by auto. lia.
    + rewrite Nat.add_comm, Nat.mod_add by lia. rewrite Nat.mod_small by auto. exact E.
Qed.
Lemma do_mask_no bases : do_mask bases = false -> forall start shape idx, in_range bases start shape idx -> ~ some_nyquist bases start idx.
Proof.
  induction bases as [|b bs IH]; intros D [|s ss] [|n ns] [|i is] H; simpl in H; try contradiction.
  - simpl. tauto.
  - unfold do_mask in D. cbn [existsb] in D. apply orb_false_iff in D as [D1 D2]. destruct H as [Hi [Hm H]]. cbn [some_nyquist].
    intros [A|A]; [|exact (IH D2 ss ns is H A)]. pose proof (base_mask_ok b (s + i) Hm) as B.
    destruct b as [N|N|]; simpl in B; [unfold mask_c2c in B | unfold mask_r2c in B | tauto]; rewrite D1 in B; tauto.
Qed.

(** * C37 *)
(** scalar fields, any number of dimensions, any bases, any distribution of the axes *)
Theorem C37_scalar : forall (K : Fld) bases start shape (u : nat -> K) idx, in_range bases start shape idx ->
  let q := ravel shape idx in
  (some_nyquist bases start idx -> mask_nyquist_nd K bases start shape u q = f0) /\
  (~ some_nyquist bases start idx -> mask_nyquist_nd K bases start shape u q = u q).
Proof.
  intros K bases start shape u idx H q. destruct (ravel_ok _ _ _ _ H) as [L E]. unfold mask_nyquist_nd.
  destruct (do_mask bases) eqn:D.
  - unfold q. rewrite apply_mask_nd_ok by auto. rewrite E. destruct (mask_entry_cases _ _ _ _ H) as [[-> A]|[-> A]]; cbn [Nat.eqb]; tauto.
  - pose proof (do_mask_no _ D _ _ _ H). tauto.
Qed.
Print Assumptions C37_scalar.
(** vector fields with I components *)
Theorem C37_vector : forall (K : Fld) I bases start shape (u : nat -> K) i idx, i < I -> in_range bases start shape idx ->
  let q := i * prod shape + ravel shape idx in
  (some_nyquist bases start idx -> mask_nyquist_vec K I bases start shape u q = f0) /\
  (~ some_nyquist bases start idx -> mask_nyquist_vec K I bases start shape u q = u q).
Proof.
  intros K I bases start shape u i idx Hi H q. destruct (ravel_ok _ _ _ _ H) as [L E]. unfold mask_nyquist_vec.
  destruct (do_mask bases) eqn:D.
  - unfold q. rewrite apply_bmask_nd_ok by auto. rewrite E. destruct (mask_entry_cases _ _ _ _ H) as [[-> A]|[-> A]]; cbn [Nat.eqb]; tauto.
  - pose proof (do_mask_no _ D _ _ _ H). tauto.
Qed.
Print Assumptions C37_vector.
(** tensor fields: all dimensions but 1 and 3, where the claim is false (below) *)
Theorem C37_tensor_partial : forall (K : Fld) I J bases start shape (u : nat -> K) i j idx, i < I -> j < J ->
  length shape <> 1 -> length shape <> 3 -> in_range bases start shape idx ->
  let q := (i * J + j) * prod shape + ravel shape idx in
  (some_nyquist bases start idx -> mask_nyquist_tensor K I J bases start shape u q = f0) /\
  (~ some_nyquist bases start idx -> mask_nyquist_tensor K I J bases start shape u q = u q).
Proof.
  intros K I J bases start shape u i j idx Hi Hj H1 H3 H q. destruct (ravel_ok _ _ _ _ H) as [L E]. unfold mask_nyquist_tensor.
  destruct (do_mask bases) eqn:D.
  - replace (match shape with [n] => _ | [n0; n1; n2] => _ | _ => _ end)
      with (apply_b2mask_nd K I J shape (fun t => mask_entry bases start (unravel shape t)) u)
      by (destruct shape as [|a [|b [|c [|d r]]]]; simpl in H1, H3; congruence).
    unfold q. rewrite apply_b2mask_nd_ok by auto. rewrite E. destruct (mask_entry_cases _ _ _ _ H) as [[-> A]|[-> A]]; cbn [Nat.eqb]; tauto.
  - pose proof (do_mask_no _ D _ _ _ H). tauto.
Qed.
Print Assumptions C37_tensor_partial.
(** 1D tensor fields with at least as many local points as components: a Nyquist coefficient is
    removed if its local index is below the number of components, and no other coefficient is
    touched; with J = length of the axis nothing is missing *)
Theorem C37_tensor_1D_partial : forall (K : Fld) I J bases start n (u : nat -> K) i j t, i < I -> j < J -> J <= n ->
  in_range bases start [n] [t] ->
  let q := (i * J + j) * prod [n] + ravel [n] [t] in
  (some_nyquist bases start [t] -> t < J -> mask_nyquist_tensor K I J bases start [n] u q = f0) /\
  (some_nyquist bases start [t] -> J <= t -> mask_nyquist_tensor K I J bases start [n] u q = u q) /\
  (~ some_nyquist bases start [t] -> mask_nyquist_tensor K I J bases start [n] u q = u q).
Proof.
  intros K I J bases start n u i j t Hi Hj HJ H q. destruct (ravel_ok _ _ _ _ H) as [L E]. unfold mask_nyquist_tensor.
  destruct (do_mask bases) eqn:D.
  - assert (P1 : prod [n] = n) by (cbn; lia). assert (R1 : ravel [n] [t] = t) by (cbn; lia). rewrite R1, P1 in L. rewrite R1 in E.
    unfold q. rewrite P1, R1. rewrite apply_b2mask_1D_ok by auto. rewrite E.
    destruct (mask_entry_cases _ _ _ _ H) as [[-> A]|[-> A]]; cbn [Nat.eqb]; destruct (Nat.ltb_spec t J); cbn [andb]; repeat split; intros; try reflexivity; try lia; try tauto.
  - pose proof (do_mask_no _ D _ _ _ H). tauto.
Qed.
Print Assumptions C37_tensor_1D_partial.
(** 3D tensor fields whose first local axis has as many points as the second index of the
    components *)
Theorem C37_tensor_3D_partial : forall (K : Fld) I J bases start n1 n2 (u : nat -> K) i j idx, i < I -> j < J ->
  in_range bases start [J; n1; n2] idx ->
  let q := (i * J + j) * prod [J; n1; n2] + ravel [J; n1; n2] idx in
  (some_nyquist bases start idx -> mask_nyquist_tensor K I J bases start [J; n1; n2] u q = f0) /\
  (~ some_nyquist bases start idx -> mask_nyquist_tensor K I J bases start [J; n1; n2] u q = u q).
Proof.
  intros K I J bases start n1 n2 u i j idx Hi Hj H q. destruct (ravel_ok _ _ _ _ H) as [L E]. unfold mask_nyquist_tensor.
  destruct (do_mask bases) eqn:D.
  - assert (X : forall mask, apply_b2mask_3D K I J J n1 n2 mask u = apply_b2mask_nd K I J [J; n1; n2] mask u)
      by (intros mask; unfold apply_b2mask_3D, apply_b2mask_nd; rewrite (eq_refl : prod [J; n1; n2] = J * (n1 * (n2 * 1))), Nat.mul_1_r; reflexivity).
    rewrite X. unfold q. rewrite apply_b2mask_nd_ok by auto. rewrite E. destruct (mask_entry_cases _ _ _ _ H) as [[-> A]|[-> A]]; cbn [Nat.eqb]; tauto.
  - pose proof (do_mask_no _ D _ _ _ H). tauto.
Qed.
Print Assumptions C37_tensor_3D_partial.
Example C37_tensor_inhabited : in_range [FourierC2C 4] [0] [4] [2] /\ some_nyquist [FourierC2C 4] [0] [2] /\
  in_range [FourierC2C 6; OtherBase; OtherBase] [1; 0; 0] [3; 2; 2] [2; 1; 0] /\ 3 <= 4.
Proof. split; [simpl; lia|]. split; [left; reflexivity|]. split; [vm_compute|repeat constructor]. repeat constructor. Qed.
Example C37_inhabited : in_range [FourierC2C 8; OtherBase; FourierR2C 6] [4; 0; 2] [4; 5; 2] [0; 3; 1] /\
  some_nyquist [FourierC2C 8; OtherBase; FourierR2C 6] [4; 0; 2] [0; 3; 1] /\
  ~ some_nyquist [FourierC2C 8; OtherBase; FourierR2C 6] [4; 0; 2] [1; 3; 0].
Proof. split; [simpl; lia|]. split; [left; reflexivity|]. vm_compute. intros [A|[A|[A|A]]]; auto; discriminate. Qed.

(** FINDING: apply_b2mask_1D loops over u.shape[1] instead of u.shape[2]: a 1D tensor field
    with 3x3 components and N = 8 keeps its Nyquist coefficients *)
Theorem C37_tensor_1D_refuted : forall (K : Fld) (u : nat -> K),
  some_nyquist [FourierC2C 8] [0] [4] /\ in_range [FourierC2C 8] [0] [8] [4] /\
  forall i j, i < 3 -> j < 3 -> let q := (i * 3 + j) * prod [8] + ravel [8] [4] in
  mask_nyquist_tensor K 3 3 [FourierC2C 8] [0] [8] u q = u q.
Proof.
  intros K u. split; [left; reflexivity|]. split; [simpl; lia|]. intros i j Hi Hj.
  assert (A : i = 0 \/ i = 1 \/ i = 2) by lia. assert (B : j = 0 \/ j = 1 \/ j = 2) by lia.
  destruct A as [-> | [-> | ->]], B as [-> | [-> | ->]]; reflexivity.
Qed.
Print Assumptions C37_tensor_1D_refuted.
(** FINDING: apply_b2mask_3D loops j over u.shape[2] instead of u.shape[1]: for a 3x3 tensor
    field on a local 8 x 1 x 1 block the array has 72 entries and the code writes behind it *)
Theorem C37_tensor_3D_refuted : exists q, 3 * 3 * prod [8; 1; 1] <= q /\ exists u : nat -> QcFld,
  mask_nyquist_tensor QcFld 3 3 [FourierC2C 8; FourierC2C 1; FourierC2C 1] [0; 0; 0] [8; 1; 1] u q <> u q.
Proof.
  exists (9 * 8 + 4). split; [simpl; lia|]. exists (fun _ => qc 1). apply qeqb_false. vm_compute. reflexivity.
Qed.
Print Assumptions C37_tensor_3D_refuted.
(** ... and when the local block is thinner than the number of components some components
    keep their Nyquist coefficients *)
Theorem C37_tensor_3D_missed_refuted : exists u : nat -> QcFld, some_nyquist [FourierC2C 8; FourierC2C 1; FourierC2C 1] [4; 0; 0] [0; 0; 0] /\
  in_range [FourierC2C 8; FourierC2C 1; FourierC2C 1] [4; 0; 0] [1; 1; 1] [0; 0; 0] /\
  mask_nyquist_tensor QcFld 3 3 [FourierC2C 8; FourierC2C 1; FourierC2C 1] [4; 0; 0] [1; 1; 1] u ((0 * 3 + 2) * prod [1; 1; 1] + ravel [1; 1; 1] [0; 0; 0]) <> f0.
Proof.
  exists (fun _ => qc 1). split; [left; reflexivity|]. split; [simpl; lia|]. apply qeqb_false. vm_compute. reflexivity.
Qed.
Print Assumptions C37_tensor_3D_missed_refuted.
