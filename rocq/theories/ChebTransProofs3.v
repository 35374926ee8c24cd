(** ChebTransProofs3.v -- the transforms of composite Chebyshev spaces. *)
From Coq Require Import Reals Lra Lia List Arith ZArith.
From Verif Require Import Base Fld SparseModel SparseSpec SparseProofs RPoly StencilModel StencilModel2 StencilSpec LegMatrixModel LegMatrixSpec ChebMatrixModel ChebMatrixSpec
  ChebMatrixProofs ChebQuadModel ChebQuadProofs ChebTransModel ChebTransProofs ChebTransProofs2 StencilProofs StencilProofs8 StencilProofs9.
Import ListNotations.
Local Open Scope R_scope.

Lemma rsum_mul n f y : rsum n f * y = rsum n (fun i => f i * y).
Proof. induction n as [|n IH]; [cbn; ring|]. rewrite !gsum_last, <- IH. ring. Qed.
Section Cls.
Variable cls : stencil_class.
Hypothesis HC : good_head cls.
Notation nbc := (List.length (sc_bcs cls)).
Lemma stencil_wf n : (nbc < n)%nat -> wf RFld (stencil_matrix cls n).
Proof.
  intros Hn. destruct HC as [Hd [Hb _]]. split; cbn [stencil_matrix sm_items sm_rows sm_cols].
  - rewrite map_map. cbn [stencil_item fst]. rewrite <- (map_map fst Z.of_nat). apply FinFun.Injective_map_NoDup; [|exact Hd].
    intros a b E. lia.
  - apply Forall_forall. intros kv Hkv. apply in_map_iff in Hkv. destruct Hkv as [it [<- Hin]].
    rewrite Forall_forall in Hb. specialize (Hb it Hin). cbn [stencil_item fst snd]. split; [lia|].
    destruct (snd it); [exact I|]. unfold diag_len. lia.
Qed.
(** rows of the stencil do not depend on the size *)
Lemma entry_size N n k j : (k < N - nbc)%nat -> (k < n - nbc)%nat ->
  mat_entry RFld (stencil_matrix cls n) k j = mat_entry RFld (stencil_matrix cls N) k j.
Proof.
  intros H1 H2. rewrite !entry_row by assumption. clear. induction (sc_stencil cls) as [|[o s] r IH]; [reflexivity|].
  cbn [row_value]. rewrite IH. reflexivity.
Qed.
Lemma entry_out N k j : (k < N - nbc)%nat -> (N <= j)%nat -> mat_entry RFld (stencil_matrix cls N) k j = 0.
Proof.
  intros H1 H2. rewrite entry_row by assumption. destruct HC as [_ [Hb _]]. induction (sc_stencil cls) as [|[o s] r IH]; [reflexivity|].
  cbn [row_value]. inversion Hb; subst. cbn [fst] in *. destruct (Nat.eqb_spec j (k + o)); [lia|]. apply IH; assumption.
Qed.
Lemma to_ortho_out N dim u j : (N <= j)%nat -> (dim <= N)%nat -> to_ortho (stencil_matrix cls N) dim u j = 0.
Proof.
  intros Hj Hd. unfold to_ortho, stencil_matrix. cbn [sm_cols sm_items].
  assert (G : forall l out, fold_left (to_ortho_step N dim u) (map (stencil_item N nbc) l) out j = out j).
  { induction l as [|it l IH]; intros out; [reflexivity|]. cbn [map fold_left]. rewrite IH.
    unfold to_ortho_step, stencil_item. cbn [fst snd]. destruct (Z.leb_spec 0 (Z.of_nat (fst it))); [|lia].
    destruct (Z.ltb_spec (Z.of_nat j) (Z.max 0 (Z.of_nat (fst it)) + (Z.min (Z.of_nat dim) (Z.of_nat N - Z.max 0 (Z.of_nat (fst it))) - Z.max 0 (- Z.of_nat (fst it))))%Z); [lia|].
    rewrite Bool.andb_false_r. reflexivity. }
  apply G.
Qed.
Lemma to_ortho_val N u j : (j < N)%nat ->
  to_ortho (stencil_matrix cls N) (N - nbc) u j = rsum (N - nbc) (fun k => u k * mat_entry RFld (stencil_matrix cls N) k j).
Proof.
  intros Hj. destruct HC as [Hd [Hb _]]. apply to_ortho_entries; try reflexivity; cbn [stencil_matrix sm_items sm_cols]; [|lia|exact Hj|].
  - rewrite map_map. cbn [stencil_item fst]. rewrite <- (map_map fst Z.of_nat). apply FinFun.Injective_map_NoDup; [intros a b E; lia|exact Hd].
  - apply Forall_forall. intros kv Hkv. apply in_map_iff in Hkv. destruct Hkv as [it [<- Hin]]. cbn [stencil_item fst]. lia.
Qed.
Lemma gsum_split N n (f : nat -> R) : (N <= n)%nat -> (forall i, (N <= i < n)%nat -> f i = 0) -> rsum n f = rsum N f.
Proof.
  intros H H0. induction n as [|n IH]; [replace N with 0%nat by lia; reflexivity|].
  destruct (Nat.eq_dec N (S n)) as [->|]; [reflexivity|]. rewrite gsum_last, H0 by lia. rewrite IH; [ring|lia|]. intros i Hi. apply H0. lia.
Qed.
Definition phi (N k : nat) (x : R) : R := peval (basis_function chebT (stencil_matrix cls N) k) x.
Lemma phi_val N k x : phi N k x = rsum N (fun j => mat_entry RFld (stencil_matrix cls N) k j * peval (chebT j) x).
Proof. unfold phi, basis_function. change (peval ?p x) with (deriv_at 0 p x). rewrite deriv_at_pcomb. reflexivity. Qed.

(** the values are those of the expansion *)
Lemma comp_expansion q N n c i : (match q with GL => 2 | LG => 1 end <= n)%nat -> (N <= n)%nat -> (i < n)%nat ->
  comp_backward q cls N n c i = rsum (N - nbc) (fun k => c k * phi N k (cheb_point q n i)).
Proof.
  intros Hn HN Hi. unfold comp_backward, comp_dim. rewrite expansion_values by assumption.
  rewrite (gsum_split N n) by (try assumption; intros j Hj; rewrite to_ortho_out by lia; ring).
  rewrite (gsum_ext_R N _ (fun j => rsum (N - nbc) (fun k => c k * mat_entry RFld (stencil_matrix cls N) k j * peval (chebT j) (cheb_point q n i)))).
  - rewrite gsum_swap. apply gsum_ext_R. intros k Hk. rewrite phi_val, <- gsum_scal. apply gsum_ext_R. intros. ring.
  - intros j Hj. rewrite to_ortho_val by assumption. rewrite Rmult_comm, <- gsum_scal. apply gsum_ext_R. intros k Hk.
    unfold truncate. destruct (Nat.ltb_spec k (N - nbc)); [ring|lia].
Qed.
(** the scalar product *)
Lemma comp_scalar q N n df u : (match q with GL => 2 | LG => 1 end <= n)%nat -> (nbc < N)%nat -> (N <= n)%nat -> df <> 0 ->
  exists b, comp_scalar_product q cls N n df u = Some b /\
    forall k, (k < N - nbc)%nat -> b k = rsum n (fun i => cheb_weight q n i / df * u i * phi N k (cheb_point q n i)).
Proof.
  intros Hn Hb HN Hdf. unfold comp_scalar_product.
  destruct (matvec_correct RFld (stencil_matrix cls n) n n (scalar_product_fast q n df u) (stencil_wf n ltac:(lia)) (le_n n) (le_n n))
    as [out [E [Hout _]]]. rewrite E. eexists. split; [reflexivity|]. intros k Hk.
  assert (V : out k = rsum n (fun i => cheb_weight q n i / df * u i * phi N k (cheb_point q n i))).
  { rewrite Hout by (cbn; lia). unfold mat_vec, fsum. cbn [sm_cols stencil_matrix]. change (@f0 RFld) with 0. change (@fadd RFld) with Rplus. change (@fmul RFld) with Rmult.
    rewrite (gsum_split N n); [|exact HN|intros j Hj; rewrite (entry_size N n) by lia; rewrite entry_out by lia; apply Rmult_0_l].
    rewrite (gsum_ext_R N _ (fun j => rsum n (fun i => mat_entry RFld (stencil_matrix cls N) k j * (cheb_weight q n i / df * u i * peval (chebT j) (cheb_point q n i))))).
    - rewrite gsum_swap. apply gsum_ext_R. intros i Hi. rewrite phi_val, <- gsum_scal. apply gsum_ext_R. intros. ring.
    - intros j Hj. rewrite (entry_size N n) by lia. rewrite scalar_values by assumption. rewrite <- gsum_scal. reflexivity. }
  destruct (Nat.eqb n N); [exact V|]. unfold truncate, comp_dim. destruct (Nat.ltb_spec k (N - nbc)); [exact V|lia].
Qed.
(** the mass matrix *)
Definition mass q n N k j : R := quad_sum (cheb_rule q n) (fun x => phi N k x * phi N j x).
Lemma mass_sum q n N k j : mass q n N k j = rsum n (fun i => cheb_weight q n i * (phi N k (cheb_point q n i) * phi N j (cheb_point q n i))).
Proof. unfold mass, cheb_rule. apply quad_sum_seq. Qed.
Lemma comp_mass q N n df c : (match q with GL => 2 | LG => 1 end <= n)%nat -> (nbc < N)%nat -> (N <= n)%nat -> df <> 0 ->
  exists b, comp_scalar_product q cls N n df (comp_backward q cls N n c) = Some b /\
    forall k, (k < N - nbc)%nat -> b k = rsum (N - nbc) (fun j => mass q n N k j / df * c j).
Proof.
  intros Hn Hb HN Hdf. destruct (comp_scalar q N n df (comp_backward q cls N n c) Hn Hb HN Hdf) as [b [E Hv]].
  exists b. split; [exact E|]. intros k Hk. rewrite Hv by exact Hk.
  rewrite (gsum_ext_R n _ (fun i => rsum (N - nbc) (fun j => c j / df * (cheb_weight q n i * (phi N k (cheb_point q n i) * phi N j (cheb_point q n i)))))).
  - rewrite gsum_swap. apply gsum_ext_R. intros j Hj. rewrite gsum_scal, mass_sum. unfold Rdiv. ring.
  - intros i Hi. rewrite comp_expansion by assumption.
    replace (cheb_weight q n i / df * rsum (N - nbc) (fun k0 => c k0 * phi N k0 (cheb_point q n i)) * phi N k (cheb_point q n i)) with
      ((cheb_weight q n i / df * phi N k (cheb_point q n i)) * rsum (N - nbc) (fun k0 => c k0 * phi N k0 (cheb_point q n i))) by ring.
    rewrite <- gsum_scal. apply gsum_ext_R. intros j Hj. unfold Rdiv. ring.
Qed.
(** mass entries through the norms *)
Lemma mass_norms q n N k j : (match q with GL => 2 | LG => 1 end <= n)%nat -> (N <= n)%nat ->
  mass q n N k j = rsum N (fun m => cheb_norm_sq true q n m * (mat_entry RFld (stencil_matrix cls N) k m * mat_entry RFld (stencil_matrix cls N) j m)).
Proof.
  intros Hn HN. rewrite mass_sum.
  rewrite (gsum_ext_R n _ (fun i => rsum N (fun m => rsum N (fun l => mat_entry RFld (stencil_matrix cls N) k m * mat_entry RFld (stencil_matrix cls N) j l *
     (cheb_weight q n i * (peval (chebT m) (cheb_point q n i) * peval (chebT l) (cheb_point q n i))))))).
  - rewrite gsum_swap. apply gsum_ext_R. intros m Hm. rewrite gsum_swap.
    rewrite (gsum_ext_R N _ (fun l => if Nat.eqb l m then cheb_norm_sq true q n m * (mat_entry RFld (stencil_matrix cls N) k m * mat_entry RFld (stencil_matrix cls N) j m) else 0)).
    + apply gsum_one, Hm.
    + intros l Hl. rewrite gsum_scal, quad_TT by (try assumption; lia). rewrite (Nat.eqb_sym m l). destruct (Nat.eqb_spec l m) as [->|]; ring.
  - intros i Hi. rewrite !phi_val.
    rewrite <- Rmult_assoc, (Rmult_comm (cheb_weight q n i)), Rmult_assoc, rsum_mul. apply gsum_ext_R. intros m Hm.
    replace (mat_entry RFld (stencil_matrix cls N) k m * peval (chebT m) (cheb_point q n i) * (cheb_weight q n i * rsum N (fun j0 => mat_entry RFld (stencil_matrix cls N) j j0 * peval (chebT j0) (cheb_point q n i))))
      with ((mat_entry RFld (stencil_matrix cls N) k m * peval (chebT m) (cheb_point q n i) * cheb_weight q n i) * rsum N (fun j0 => mat_entry RFld (stencil_matrix cls N) j j0 * peval (chebT j0) (cheb_point q n i))) by ring.
    rewrite <- gsum_scal. apply gsum_ext_R. intros l Hl. ring.
Qed.
(** the mass matrix is positive definite *)
Lemma mass_form q n N a : (match q with GL => 2 | LG => 1 end <= n)%nat -> (N <= n)%nat ->
  rsum (N - nbc) (fun k => a k * rsum (N - nbc) (fun j => mass q n N k j * a j)) =
  rsum N (fun m => cheb_norm_sq true q n m * (rsum (N - nbc) (fun k => a k * mat_entry RFld (stencil_matrix cls N) k m)) ^ 2).
Proof.
  intros Hn HN. set (S := fun k m => mat_entry RFld (stencil_matrix cls N) k m).
  rewrite (gsum_ext_R (N - nbc) _ (fun k => rsum N (fun m => rsum (N - nbc) (fun j => cheb_norm_sq true q n m * (a k * S k m) * (a j * S j m))))).
  - rewrite gsum_swap. apply gsum_ext_R. intros m Hm. fold (S). cbn [pow]. rewrite Rmult_1_r.
    rewrite rsum_mul, <- gsum_scal. apply gsum_ext_R. intros k Hk. rewrite (Rmult_comm (a k * mat_entry RFld (stencil_matrix cls N) k m)).
    rewrite rsum_mul, <- gsum_scal. apply gsum_ext_R. intros j Hj. unfold S. ring.
  - intros k Hk. rewrite gsum_swap, <- gsum_scal. apply gsum_ext_R. intros j Hj. rewrite mass_norms by assumption.
    rewrite Rmult_comm, rsum_mul. rewrite (Rmult_comm _ (a k)), <- gsum_scal. apply gsum_ext_R. intros m Hm. unfold S. ring.
Qed.
Lemma rsum_nonneg_zero N f : (forall i, (i < N)%nat -> 0 <= f i) -> rsum N f = 0 -> forall i, (i < N)%nat -> f i = 0.
Proof.
  intros H. assert (P : forall m, (m <= N)%nat -> 0 <= rsum m f).
  { induction m as [|m IH]; intros Hm; [cbn; lra|]. rewrite gsum_last. specialize (IH ltac:(lia)). specialize (H m ltac:(lia)). lra. }
  revert H P. induction N as [|N IH]; intros H P E i Hi; [lia|]. rewrite gsum_last in E.
  pose proof (P N ltac:(lia)). pose proof (H N ltac:(lia)). destruct (Nat.eq_dec i N) as [->|]; [lra|].
  apply IH; [intros; apply H; lia|intros; apply P; lia|lra|lia].
Qed.
Lemma mass_injective q n N a : (match q with GL => 2 | LG => 1 end <= n)%nat -> (N <= n)%nat ->
  (forall k, (k < N - nbc)%nat -> rsum (N - nbc) (fun j => mass q n N k j * a j) = 0) -> forall k, (k < N - nbc)%nat -> a k = 0.
Proof.
  intros Hn HN H. apply (good_independent cls HC N a). intros m Hm.
  assert (Z : cheb_norm_sq true q n m * (rsum (N - nbc) (fun k => a k * mat_entry RFld (stencil_matrix cls N) k m)) ^ 2 = 0).
  { apply (rsum_nonneg_zero N (fun m => cheb_norm_sq true q n m * (rsum (N - nbc) (fun k => a k * mat_entry RFld (stencil_matrix cls N) k m)) ^ 2)); [|rewrite <- mass_form by assumption|exact Hm].
    - intros i Hi. pose proof (norm_pos true q n i). apply Rmult_le_pos; [lra|apply pow2_ge_0].
    - apply gsum_zero. intros k Hk. rewrite H by exact Hk. ring. }
  apply Rmult_integral in Z. destruct Z as [Z|Z]; [exfalso; exact (norm_ne0 true q n m Z)|].
  set (x := rsum _ _) in *. cbn [pow] in Z. nra.
Qed.
Lemma mass_pad q n N k j : q = LG \/ n = N -> (match q with GL => 2 | LG => 1 end <= N)%nat -> (N <= n)%nat -> mass q n N k j = mass q N N k j.
Proof.
  intros Hq HN Hn. rewrite !mass_norms by lia. apply gsum_ext_R. intros m _. rewrite (norm_pad q n N m Hq). reflexivity.
Qed.
End Cls.
