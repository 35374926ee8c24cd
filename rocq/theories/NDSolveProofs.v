(** NDSolveProofs.v -- flattening, Kronecker products and the factorised matrix. *)
From Coq Require Import Arith ZArith List Lia Bool.
From Verif Require Import Base Fld SolversModel SolversSpec SparseModel SparseSpec SparseProofs SparseProofs2 SparseProofs3 TPSpec
  MDSolveModel MDSolveSpec MDSolveProofs2 NDSolveModel NDSolveSpec.
Import ListNotations.
Local Open Scope nat_scope.

Section P.
  Variable K : Fld.
  Notation vec := (nat -> K).
  Notation dia := (nat -> nat -> K).
  Notation arr := (list nat -> K).
  Notation R := (fringlaws K).

  Lemma F2_len {A B} (P : A -> B -> Prop) l m : Forall2 P l m -> length m = length l.
  Proof. induction 1; cbn; congruence. Qed.

  (** ** row-major numbering *)
  Lemma within_inside ds idx : within ds idx <-> inside ds idx = true.
  Proof.
    unfold within. revert idx. induction ds as [|d ds IH]; intros [|i idx]; cbn [inside]; split; intros H;
      try (now constructor); try discriminate; try (now inversion H).
    - inversion H; subst. apply andb_true_iff. split; [apply Nat.ltb_lt; auto | apply IH; auto].
    - apply andb_true_iff in H as [H1 H2]. constructor; [apply Nat.ltb_lt; auto | apply IH; auto].
  Qed.
  Lemma flat_lt ds idx : within ds idx -> flat ds idx < prod ds.
  Proof.
    induction 1 as [|d i ds idx Hi H IH]; cbn [flat prod]; [lia|]. nia.
  Qed.
  Lemma unflat_flat ds idx : within ds idx -> unflat ds (flat ds idx) = idx.
  Proof.
    induction 1 as [|d i ds idx Hi H IH]; cbn [flat unflat]; [reflexivity|].
    assert (L := flat_lt _ _ H).
    rewrite Nat.div_add_l by lia. rewrite (Nat.div_small (flat ds idx)) by auto. rewrite Nat.add_0_r.
    rewrite Nat.add_comm, Nat.mod_add by lia. rewrite Nat.mod_small by auto. rewrite IH. reflexivity.
  Qed.
  Lemma unflat_within ds k : k < prod ds -> within ds (unflat ds k).
  Proof.
    unfold within. revert k. induction ds as [|d ds IH]; intros k H; cbn [unflat]; constructor; cbn [prod] in H.
    - apply Nat.div_lt_upper_bound; nia.
    - apply IH. apply Nat.mod_upper_bound. nia.
  Qed.
  Lemma flat_unflat ds k : k < prod ds -> flat ds (unflat ds k) = k.
  Proof.
    revert k. induction ds as [|d ds IH]; intros k H; cbn [unflat flat prod] in *; [lia|].
    rewrite IH by (apply Nat.mod_upper_bound; nia). rewrite Nat.mul_comm. symmetry. apply Nat.div_mod. nia.
  Qed.

  Lemma fsum_mul d p (f : vec) : fsum (d * p) f = fsum d (fun a => fsum p (fun b => f (a * p + b))).
  Proof.
    induction d as [|d IH]; [reflexivity|].
    replace (S d * p) with (d * p + p) by lia. rewrite fsum_split, IH, fsum_S. reflexivity.
  Qed.

  (** ** Kronecker products *)
  Definition shaped (ds : list nat) (ms : list (smat K)) : Prop :=
    Forall2 (fun d A => sm_rows K A = d /\ sm_cols K A = d) ds ms.
  Lemma kron_diags_shape ds ms : shaped ds ms ->
    x_rows K (kron_diags K ms) = prod ds /\ x_cols K (kron_diags K ms) = prod ds.
  Proof.
    induction 1 as [|d A ds ms [H1 H2] H IH]; [split; reflexivity|].
    destruct H as [|d' A' ds' ms' H' H].
    - cbn [kron_diags csc x_rows x_cols prod]. lia.
    - destruct IH as [I1 I2]. change (kron_diags K (A :: A' :: ms')) with (skron K (csc K A) (kron_diags K (A' :: ms'))).
      cbn [skron csc x_rows x_cols]. rewrite I1, I2, H1, H2. split; reflexivity.
  Qed.
  Lemma kron_diags_entry ds ms : shaped ds ms -> forall i j,
    x_e K (kron_diags K ms) i j = kprod K ms (unflat ds i) (unflat ds j).
  Proof.
    induction 1 as [|d A ds ms [H1 H2] H IH]; intros i j; [reflexivity|].
    destruct H as [|d' A' ds' ms' H' H].
    - cbn [kron_diags csc x_e unflat kprod prod]. rewrite !Nat.div_1_r, csc_mat.
      rewrite (Ring_theory.Rmul_comm R). rewrite (Ring_theory.Rmul_1_l R). reflexivity.
    - destruct (kron_diags_shape _ _ (Forall2_cons _ _ H' H)) as [S1 S2].
      change (kron_diags K (A :: A' :: ms')) with (skron K (csc K A) (kron_diags K (A' :: ms'))).
      cbn [skron x_e]. rewrite S1, S2, IH. cbn [csc x_e]. rewrite csc_mat. reflexivity.
  Qed.

  Lemma lsum_ext {A} (f g : A -> K) l : (forall x, In x l -> f x = g x) -> lsum K f l = lsum K g l.
  Proof.
    induction l as [|x l IH]; intros H; [reflexivity|]. cbn [lsum].
    rewrite (H x (or_introl eq_refl)), IH; [reflexivity|]. intros; apply H; right; auto.
  Qed.
  Lemma fold_add {A} (f : A -> dia) l (m : dia) i j :
    fold_left (fun m t => fun i j => fadd (m i j) (f t i j)) l m i j = fadd (m i j) (lsum K (fun t => f t i j) l).
  Proof.
    revert m. induction l as [|t l IH]; intros m; cbn [fold_left lsum].
    - rewrite (Ring_theory.Radd_comm R). symmetry. apply (Ring_theory.Radd_0_l R).
    - rewrite IH. rewrite <- (Ring_theory.Radd_assoc R). reflexivity.
  Qed.
  Lemma sum_all {A} (f : A -> dia) (ts : list A) : ts <> [] -> forall i j,
    match ts with
    | [] => fun _ _ => f0
    | t :: ts => fold_left (fun m t => fun i j => fadd (m i j) (f t i j)) ts (f t)
    end i j = lsum K (fun t => f t i j) ts.
  Proof. destruct ts as [|t ts]; [congruence|]. intros _ i j. rewrite fold_add. reflexivity. Qed.

  Lemma nd_mat_dense ds ts : nd_ok K ds ts -> forall i j, nd_mat K ts i j = nd_dense K ds ts i j.
  Proof.
    intros (H0 & _ & H) i j. unfold nd_mat. rewrite (sum_all (tp_diags K) ts H0). unfold nd_dense.
    apply lsum_ext. intros t Ht. unfold tp_diags. rewrite (kron_diags_entry ds) by (apply H; auto).
    apply (Ring_theory.Rmul_comm R).
  Qed.

  Lemma kron_flat ds ms : shaped ds ms -> forall idx (x : vec), length idx = length ds ->
    fsum (prod ds) (fun j => fmul (kprod K ms idx (unflat ds j)) (x j)) = kron K ms idx (fun jdx => x (flat ds jdx)).
  Proof.
    induction 1 as [|d A ds ms [H1 H2] H IH]; intros [|i idx] x L; try discriminate.
    - cbn [prod unflat kprod kron flat]. rewrite fsum_S. change (fadd f0 (fmul f1 (x 0)) = x 0).
      rewrite (Ring_theory.Radd_0_l R). apply (Ring_theory.Rmul_1_l R).
    - cbn [prod]. rewrite fsum_mul. cbn [kron]. rewrite H2. apply fsum_ext. intros a Ha.
      cbn [flat]. rewrite <- (IH idx (fun k => x (a * prod ds + k))) by (cbn in L; lia).
      rewrite <- fsum_scal. apply fsum_ext. intros b Hb. cbn [unflat kprod].
      rewrite Nat.div_add_l by lia. rewrite (Nat.div_small b) by auto. rewrite Nat.add_0_r.
      rewrite (Nat.add_comm (a * prod ds) b). rewrite Nat.mod_add by lia. rewrite Nat.mod_small by auto.
      symmetry. apply (Ring_theory.Rmul_assoc R).
  Qed.
  Lemma kron_ext ds ms : shaped ds ms -> forall idx (u v : arr),
    (forall jdx, within ds jdx -> u jdx = v jdx) -> kron K ms idx u = kron K ms idx v.
  Proof.
    induction 1 as [|d A ds ms [H1 H2] H IH]; intros [|i idx] u v E; cbn [kron]; auto.
    - apply E. constructor.
    - apply fsum_ext. intros j Hj. f_equal. apply IH. intros jdx Hj'. apply E. constructor; auto. lia.
  Qed.

  Lemma lsum_fsum {A} n (f : A -> vec) (l : list A) :
    fsum n (fun j => lsum K (fun t => f t j) l) = lsum K (fun t => fsum n (f t)) l.
  Proof.
    induction l as [|t l IH]; cbn [lsum]; [apply fsum_zero; auto|].
    rewrite fsum_add, IH. reflexivity.
  Qed.
  Lemma lsum_scal_r {A} (f : A -> K) l c : fmul (lsum K f l) c = lsum K (fun t => fmul (f t) c) l.
  Proof.
    induction l as [|t l IH]; cbn [lsum].
    - generalize c. intros. exact (fmul_0_l K c0).
    - rewrite (Ring_theory.Rdistr_l R), IH. reflexivity.
  Qed.

  (** row flat(idx) of the assembled matrix is the operator at idx *)
  Lemma dense_row ds ts (x : vec) (u : arr) idx : nd_ok K ds ts -> within ds idx ->
    (forall jdx, within ds jdx -> u jdx = x (flat ds jdx)) ->
    fsum (prod ds) (fun j => fmul (nd_dense K ds ts (flat ds idx) j) (x j))
    = lsum K (fun t => fmul (nd_scale K t) (kron K (nd_mats K t) idx u)) ts.
  Proof.
    intros (_ & _ & H) Hi Hu. unfold nd_dense. rewrite unflat_flat by auto.
    transitivity (fsum (prod ds) (fun j => lsum K (fun t => fmul (fmul (nd_scale K t) (kprod K (nd_mats K t) idx (unflat ds j))) (x j)) ts)).
    { apply fsum_ext. intros j _. apply lsum_scal_r. }
    rewrite (lsum_fsum (prod ds) (fun t j => fmul (fmul (nd_scale K t) (kprod K (nd_mats K t) idx (unflat ds j))) (x j))).
    apply lsum_ext. intros t Ht. specialize (H t Ht).
    rewrite (kron_ext ds _ H idx u (fun jdx => x (flat ds jdx))) by auto.
    rewrite <- (kron_flat ds) by (auto; unfold within in Hi; eapply F2_len; eauto).
    rewrite <- fsum_scal. apply fsum_ext. intros j _. symmetry. apply (Ring_theory.Rmul_assoc R).
  Qed.

  (** ** constraints *)
  Lemma nd_constrain_mat (A : dia) b cs i j :
    fst (nd_constrain K A b cs) i j = pinned K (rows_of K cs) A i j.
  Proof.
    unfold nd_constrain. unfold pinned, rows_of. revert A b.
    induction cs as [|[r v] cs IH]; intros A b; cbn [fold_left map existsb fst snd]; [reflexivity|].
    rewrite IH. unfold pin_row. rewrite (Nat.eqb_sym i j).
    destruct (Nat.eqb_spec i r) as [->|]; cbn [orb]; [|reflexivity].
    rewrite (Nat.eqb_sym j r). destruct (existsb _ (map fst cs)); reflexivity.
  Qed.
  Lemma nd_constrain_other (A : dia) b cs r : ~ In r (rows_of K cs) -> snd (nd_constrain K A b cs) r = b r.
  Proof.
    unfold nd_constrain, rows_of. revert A b.
    induction cs as [|[r' v] cs IH]; intros A b H; cbn [fold_left map In fst snd] in *; [reflexivity|].
    rewrite IH by tauto. apply upd_other. intros ->. tauto.
  Qed.
  Lemma nd_constrain_last (A : dia) b pre r v post : ~ In r (rows_of K post) ->
    snd (nd_constrain K A b (pre ++ (r, v) :: post)) r = v.
  Proof.
    intros H. unfold nd_constrain. rewrite fold_left_app. cbn [fold_left].
    destruct (fold_left _ pre (A, b)) as [A' b']. cbn [fst snd].
    change (snd (nd_constrain K (pin_row K A' r) (upd b' r v) post) r = v).
    rewrite nd_constrain_other by auto. apply upd_same.
  Qed.
  Lemma pinned_idem rows rows' (A B : dia) : (forall r, In r rows <-> In r rows') ->
    (forall i j, A i j = pinned K rows B i j) -> forall i j, pinned K rows' A i j = pinned K rows B i j.
  Proof.
    intros HS HA i j. unfold pinned at 1. rewrite HA. unfold pinned.
    assert (E : existsb (Nat.eqb i) rows = existsb (Nat.eqb i) rows').
    { apply eq_iff_eq_true. rewrite !existsb_exists. split; intros (x & Hx & E); exists x; split; auto; apply HS; auto. }
    rewrite E. destruct (existsb (Nat.eqb i) rows'); reflexivity.
  Qed.
  Lemma pinned_in rows (A : dia) i j : In i rows -> pinned K rows A i j = if i =? j then f1 else f0.
  Proof.
    intros H. unfold pinned. replace (existsb (Nat.eqb i) rows) with true; [reflexivity|].
    symmetry. apply existsb_exists. exists i. split; auto. apply Nat.eqb_refl.
  Qed.
  Lemma pinned_out rows (A : dia) i j : ~ In i rows -> pinned K rows A i j = A i j.
  Proof.
    intros H. unfold pinned. destruct (existsb (Nat.eqb i) rows) eqn:E; [|reflexivity].
    apply existsb_exists in E as (x & Hx & E). apply Nat.eqb_eq in E. subst. contradiction.
  Qed.
End P.
