(** DomainProperties.v -- C30 (domain maps), C31 (BoundaryConditions), C43 (bases found from
    boundary conditions). *)
From Coq Require Import Reals Lra Lia List Ascii String Arith ZArith Permutation Bool.
From Verif Require Import Base Fld RPoly JacobiModel JacobiProofs2 StencilProofs StencilProofs8 DomainModel DomainProofs.
Import ListNotations.
Local Open Scope R_scope.

(** ** C30 *)
Theorem C30_inverse : forall dom ref x, lower dom < upper dom -> lower ref < upper ref ->
  map_reference_domain dom ref (map_true_domain dom ref x) = x /\
  map_true_domain dom ref (map_reference_domain dom ref x) = x.
Proof.
  intros dom ref x H1 H2. pose proof (df_pos dom ref H1 H2). rewrite !map_ref_affine, !map_true_affine. split; field; lra.
Qed.
Print Assumptions C30_inverse.

(** both maps are increasing and affine *)
Theorem C30_affine : forall dom ref, lower dom < upper dom -> lower ref < upper ref ->
  (forall x y, x < y <-> map_reference_domain dom ref x < map_reference_domain dom ref y) /\
  (forall x y t, map_reference_domain dom ref ((1 - t) * x + t * y) = (1 - t) * map_reference_domain dom ref x + t * map_reference_domain dom ref y) /\
  (forall x y t, map_true_domain dom ref ((1 - t) * x + t * y) = (1 - t) * map_true_domain dom ref x + t * map_true_domain dom ref y).
Proof.
  intros dom ref H1 H2. pose proof (df_pos dom ref H1 H2) as Hp. split; [|split].
  - intros x y. rewrite !map_ref_affine. split; intros H.
    + apply Rplus_lt_compat_l, Rmult_lt_compat_r; lra.
    + apply Rplus_lt_reg_l in H. apply Rmult_lt_reg_r in H; lra.
  - intros. rewrite !map_ref_affine. ring.
  - intros. rewrite !map_true_affine. field. lra.
Qed.
Print Assumptions C30_affine.

(** end points go to end points, unless the lengths differ by less than the tolerance 1e-12 *)
Theorem C30_endpoints_partial : forall dom ref, lower dom < upper dom -> lower ref < upper ref ->
  upper dom - lower dom = upper ref - lower ref \/ 1 / 10 ^ 12 <= Rabs ((upper dom - lower dom) - (upper ref - lower ref)) ->
  map_reference_domain dom ref (lower dom) = lower ref /\ map_reference_domain dom ref (upper dom) = upper ref /\
  map_true_domain dom ref (lower ref) = lower dom /\ map_true_domain dom ref (upper ref) = upper dom /\
  forall x, lower dom <= x <= upper dom <-> lower ref <= map_reference_domain dom ref x <= upper ref.
Proof.
  intros dom ref H1 H2 Hr. pose proof (df_pos dom ref H1 H2) as Hp. pose proof (df_resolved dom ref H1 H2 Hr) as E.
  assert (map_reference_domain dom ref (lower dom) = lower ref) as A1 by (rewrite map_ref_affine; ring).
  assert (map_reference_domain dom ref (upper dom) = upper ref) as A2 by (rewrite map_ref_affine, E; field; lra).
  split; [exact A1|split; [exact A2|split; [|split]]].
  - rewrite map_true_affine. field. lra.
  - rewrite map_true_affine, E. field. lra.
  - intros x. destruct (C30_affine dom ref H1 H2) as [M _]. rewrite <- A1, <- A2. rewrite map_ref_affine, map_ref_affine, map_ref_affine.
    split; intros [B1 B2]; split; try (apply Rplus_le_compat_l, Rmult_le_compat_r; lra);
    [apply Rplus_le_reg_l in B1; apply Rmult_le_reg_r in B1; lra|apply Rplus_le_reg_l in B2; apply Rmult_le_reg_r in B2; lra].
Qed.
Print Assumptions C30_endpoints_partial.

(** in every case the error at the upper end is below the tolerance *)
Theorem C30_tolerance : forall dom ref, lower dom < upper dom -> lower ref < upper ref ->
  map_reference_domain dom ref (lower dom) = lower ref /\ Rabs (map_reference_domain dom ref (upper dom) - upper ref) < 1 / 10 ^ 12.
Proof.
  intros dom ref H1 H2. split; [rewrite map_ref_affine; ring|]. rewrite map_ref_affine. unfold domain_factor.
  destruct (Rlt_dec _ _) as [H|H].
  - replace (lower ref + (upper dom - lower dom) * 1 - upper ref) with (upper dom - lower dom - (upper ref - lower ref)) by ring. exact H.
  - replace (_ - upper ref) with 0 by (field; lra). rewrite Rabs_R0. apply Rdiv_lt_0_compat; [lra|apply pow_lt; lra].
Qed.
Print Assumptions C30_tolerance.

(** and it is not zero for any domain with such a length *)
Theorem C30_endpoints_refuted : forall dom ref,
  0 < Rabs ((upper dom - lower dom) - (upper ref - lower ref)) < 1 / 10 ^ 12 ->
  map_reference_domain dom ref (upper dom) <> upper ref.
Proof.
  intros dom ref [H0 H] E. rewrite map_ref_affine in E. unfold domain_factor in E. destruct (Rlt_dec _ _); [|contradiction].
  assert (upper dom - lower dom - (upper ref - lower ref) = 0) as Z by lra. rewrite Z, Rabs_R0 in H0. lra.
Qed.
Print Assumptions C30_endpoints_refuted.
Example C30_nonvacuity : let dom := mkDomain 1 4 in let ref := mkDomain (-1) 1 in
  1 / 10 ^ 12 <= Rabs ((upper dom - lower dom) - (upper ref - lower ref)) /\ map_reference_domain dom ref 2 = -1/3 /\
  let near := mkDomain (-1) (1 + 1 / 10 ^ 13) in 0 < Rabs ((upper near - lower near) - (upper ref - lower ref)) < 1 / 10 ^ 12.
Proof.
  cbn. assert (Rabs (4 - 1 - (1 - -1)) = 1) as A by (rewrite Rabs_right; lra). split; [|split].
  - rewrite A. lra.
  - rewrite map_ref_affine. unfold domain_factor. cbn. destruct (Rlt_dec _ _) as [H|H]; [rewrite A in H; lra|lra].
  - rewrite Rabs_right; lra.
Qed.

(** ** C31.  What a condition says about a function u at the point x: [u k] is the k'th
    derivative of u *)
Definition says (u : nat -> R -> R) (x : R) (kv : bckey * bcval) : Prop :=
  match kv with
  | (kD, Val v) => u 0%nat x = v | (kN, Val v) => u 1%nat x = v | (kN2, Val v) => u 2%nat x = v
  | (kN3, Val v) => u 3%nat x = v | (kN4, Val v) => u 4%nat x = v | (kN5, Val v) => u 5%nat x = v
  | (kR, Pair c d) => u 0%nat x + c * u 1%nat x = d
  | (kW, Pair c d) => u 1%nat x + c * u 2%nat x = d
  | _ => False
  end.
Definition reference := mkDomain (-1) 1.
Definition rescaled_key (kv : bckey * bcval) : Prop :=
  match kv with (kD, Val _) | (kN, Val _) | (kN2, Val _) | (kN3, Val _) => True | _ => False end.
(** u on the true domain, U the same function on the reference domain (-1, 1): u satisfies the
    given conditions exactly when U satisfies the stored ones *)
Theorem C31_rescaling_partial : forall dom b (u U : nat -> R -> R), lower dom < upper dom ->
  (upper dom - lower dom = 2 \/ 1 / 10 ^ 12 <= Rabs (upper dom - lower dom - 2)) ->
  (forall i x, derivable_pt_lim (u i) x (u (S i) x)) -> (forall i x, derivable_pt_lim (U i) x (U (S i) x)) ->
  (forall X, U 0%nat X = u 0%nat (map_true_domain dom reference X)) ->
  Forall rescaled_key (bleft b) -> Forall rescaled_key (bright b) ->
  let s := bc_init b (Bounded dom) in
  (Forall (says u (lower dom)) (bleft b) <-> Forall (says U (-1)) (bleft s)) /\
  (Forall (says u (upper dom)) (bright b) <-> Forall (says U 1) (bright s)).
Proof.
  intros dom b u U Hd Hr Du DU H0 Hl Hrr s.
  assert (lower reference < upper reference) as Hf by (cbn; lra).
  assert (resolved dom reference) as Hres by (unfold resolved; cbn; destruct Hr as [Hr|Hr]; [left; lra|right; replace (upper dom - lower dom - (1 - -1)) with (upper dom - lower dom - 2) by ring; exact Hr]).
  pose proof (chain_rule u U dom reference Hd Hf Du DU H0) as CR.
  destruct (C30_endpoints_partial dom reference Hd Hf Hres) as (_ & _ & E1 & E2 & _). cbn [lower upper reference] in E1, E2.
  pose proof (df_pos dom reference Hd Hf) as Hp. pose proof (df_resolved dom reference Hd Hf Hres) as Ed.
  assert (bc_df (Bounded dom) = domain_factor dom reference) as Eb by (rewrite Ed; cbn; f_equal; ring).
  assert (forall x X, map_true_domain dom reference X = x -> forall kv, rescaled_key kv -> (says u x kv <-> says U X (rescale1 (bc_df (Bounded dom)) kv))) as Hk.
  { intros x X Ex [k [v|c d]] HH; destruct k; try destruct HH; rewrite Eb; cbn [rescale1 says]; rewrite CR, Ex; set (df := domain_factor dom reference) in *; clearbody df.
    - replace (df ^ 0) with 1 by reflexivity. split; intros; lra.
    - rewrite pow_1. split; intros H; [rewrite H; reflexivity|]. apply (Rmult_eq_reg_r (/ df)); [exact H|]. apply Rinv_neq_0_compat. lra.
    - split; intros H; [rewrite H; reflexivity|]. apply (Rmult_eq_reg_r (/ df ^ 2)); [exact H|]. apply Rinv_neq_0_compat, pow_nonzero. lra.
    - split; intros H; [rewrite H; reflexivity|]. apply (Rmult_eq_reg_r (/ df ^ 3)); [exact H|]. apply Rinv_neq_0_compat, pow_nonzero. lra. }
  assert (forall x X l, map_true_domain dom reference X = x -> Forall rescaled_key l -> (Forall (says u x) l <-> Forall (says U X) (map (rescale1 (bc_df (Bounded dom))) l))) as HF.
  { intros x X l Ex. induction l as [|kv l IH]; intros HH; cbn [map]; [split; constructor|]. inversion HH; subst. rewrite !Forall_cons_iff, (Hk _ _ eq_refl kv), IH by auto. reflexivity. }
  split; apply HF; auto.
Qed.
Print Assumptions C31_rescaling_partial.

(** refuted for the documented conditions N4 (and N5), R and W on a domain that is not of length 2 *)
Definition unit_domain := mkDomain 0 1.
Lemma unit_resolved : resolved unit_domain reference.
Proof. right. cbn. rewrite Rabs_left by lra. lra. Qed.
Lemma unit_map X : map_true_domain unit_domain reference X = (X + 1) / 2.
Proof. rewrite map_true_affine, (df_resolved unit_domain reference); [cbn; field|unfold proper; cbn; lra|unfold proper; cbn; lra|apply unit_resolved]. Qed.
Theorem C31_rescaling_refuted : forall key, key = kN4 \/ key = kR \/ key = kW ->
  exists kv (u U : nat -> R -> R), fst kv = key /\ derivs u /\ derivs U /\ (forall X, U 0%nat X = u 0%nat (map_true_domain unit_domain reference X)) /\
    says u (lower unit_domain) kv /\ ~ Forall (says U (-1)) (bleft (bc_init (mkBc [kv] []) (Bounded unit_domain))).
Proof.
  intros key [-> | [-> | ->]].
  - exists (kN4, Val 1), (fun i x => deriv_at i [0; 0; 0; 0; 1/24] x), (fun i x => deriv_at i [1/384; 4/384; 6/384; 4/384; 1/384] x).
    split; [reflexivity|]. split; [apply poly_derivs|]. split; [apply poly_derivs|]. split; [|split].
    + intros X. rewrite unit_map. cbn. field.
    + cbn. lra.
    + cbn. intros H. inversion H as [|? ? H1 _]; subst. cbn in H1. lra.
  - exists (kR, Pair 1 1), (fun i x => deriv_at i [0; 1] x), (fun i x => deriv_at i [1/2; 1/2] x).
    split; [reflexivity|]. split; [apply poly_derivs|]. split; [apply poly_derivs|]. split; [|split].
    + intros X. rewrite unit_map. cbn. field.
    + cbn. lra.
    + cbn. intros H. inversion H as [|? ? H1 _]; subst. cbn in H1. lra.
  - exists (kW, Pair 1 1), (fun i x => deriv_at i [0; 1] x), (fun i x => deriv_at i [1/2; 1/2] x).
    split; [reflexivity|]. split; [apply poly_derivs|]. split; [apply poly_derivs|]. split; [|split].
    + intros X. rewrite unit_map. cbn. field.
    + cbn. lra.
    + cbn. intros H. inversion H as [|? ? H1 _]; subst. cbn in H1. lra.
Qed.
Print Assumptions C31_rescaling_refuted.

(** making BoundaryConditions from BoundaryConditions (FunctionSpace does, with bc=V.bcs) rescales twice *)
Theorem C31_twice_refuted : let b := mkBc [(kN, Val 1)] [] in
  bc_init (bc_init b (Bounded unit_domain)) (Bounded unit_domain) <> bc_init b (Bounded unit_domain).
Proof. cbn. intros H. injection H as H. lra. Qed.
Print Assumptions C31_twice_refuted.

(** *** names and values: same length, the i'th value belongs to the i'th name, left conditions
    before right ones, every condition listed once, whatever the order of the dictionary *)
Theorem C31_ordered : forall b, NoDup (map fst (bleft b)) -> NoDup (map fst (bright b)) ->
  List.length (orderednames b) = List.length (orderedvals b) /\
  (forall name v, In (name, v) (combine (orderednames b) (orderedvals b)) <->
     (exists kv, In kv (bleft b) /\ name = String.append "L" (key_name (fst kv)) /\ v = rhs (snd kv)) \/
     (exists kv, In kv (bright b) /\ name = String.append "R" (key_name (fst kv)) /\ v = rhs (snd kv))) /\
  NoDup (orderednames b) /\ num_bcs b = (List.length (bleft b) + List.length (bright b))%nat /\
  forall b', Permutation (bleft b) (bleft b') -> Permutation (bright b) (bright b') ->
    orderednames b' = orderednames b /\ orderedvals b' = orderedvals b.
Proof.
  intros b Nl Nr.
  assert (forall l : side, Permutation l (sorted_side l)) as P by apply sorted_perm.
  split; [unfold orderednames, orderedvals; rewrite !app_length, !map_length; reflexivity|]. split; [|split; [|split]].
  - intros name v. assert (combine (orderednames b) (orderedvals b) =
      map (fun kv => (String.append "L" (key_name (fst kv)), rhs (snd kv))) (sorted_side (bleft b)) ++
      map (fun kv => (String.append "R" (key_name (fst kv)), rhs (snd kv))) (sorted_side (bright b))) as ->.
    { unfold orderednames, orderedvals. generalize (sorted_side (bleft b)) (sorted_side (bright b)). intros l r.
      induction l as [|x l IH]; cbn; [induction r as [|y r IH]; cbn; congruence|]. f_equal. exact IH. }
    rewrite in_app_iff, !in_map_iff. split.
    + intros [(kv & E & H)|(kv & E & H)]; [left|right]; exists kv; injection E as <- <-; (split; [eapply Permutation_in; [symmetry; apply P|exact H]|auto]).
    + intros [(kv & H & -> & ->)|(kv & H & -> & ->)]; [left|right]; exists kv; (split; [reflexivity|eapply Permutation_in; [apply P|exact H]]).
  - assert (forall c (l : side), NoDup (map fst l) -> NoDup (map (fun kv => String.append c (key_name (fst kv))) (sorted_side l))) as N.
    { intros c l H. apply (Permutation_NoDup (l := map (fun kv => String.append c (key_name (fst kv))) l)); [apply Permutation_map, P|].
      rewrite <- (map_map fst (fun k => String.append c (key_name k))). apply FinFun.Injective_map_NoDup; [|exact H].
      intros x y E. assert (key_name x = key_name y) as E' by (clear - E; induction c; cbn in E; [exact E|injection E; auto]). destruct x, y; try reflexivity; discriminate E'. }
    unfold orderednames.
    assert (forall l r : list string, NoDup l -> NoDup r -> (forall x, In x l -> In x r -> False) -> NoDup (l ++ r)) as NA.
    { clear. induction l as [|x l IH]; intros r Hl Hr D; [exact Hr|]. inversion Hl; subst. cbn. constructor.
      - rewrite in_app_iff. intros [H|H]; [contradiction|]. apply (D x); cbn; auto.
      - apply IH; auto. intros y Hy. apply D. cbn; auto. }
    apply NA; auto. intros x Hx Hy. apply in_map_iff in Hx as (k1 & <- & _). apply in_map_iff in Hy as (k2 & E & _). discriminate E.
  - unfold num_bcs, orderedvals. rewrite app_length, !map_length. f_equal; symmetry; apply Permutation_length, P.
  - intros b' H1 H2. unfold orderednames, orderedvals. rewrite (sorted_unique _ _ Nl H1), (sorted_unique _ _ Nr H2). auto.
Qed.
Print Assumptions C31_ordered.

(** the class is looked up under the concatenated names: two sets of conditions with the same
    string have the same names *)
Theorem C31_dispatch : forall b b', join (orderednames b) = join (orderednames b') -> orderednames b = orderednames b'.
Proof.
  intros b b'. assert (forall b, orderednames b = map (fun t => token (fst t) (snd t)) (map (fun t => (fst t, fst (snd t))) (conds b))) as E.
  { intros c. unfold orderednames, conds, token. rewrite map_map, map_app, !map_map. reflexivity. }
  rewrite !E. intros H. apply join_inj in H. rewrite H. reflexivity.
Qed.
Print Assumptions C31_dispatch.

(** a tuple of 2h numbers gives the derivatives 0 .. h-1 at the left end, then at the right end *)
Theorem C31_tuple : forall v h, In h [2; 3; 4; 5; 6]%nat -> List.length v = (2 * h)%nat ->
  exists b, bc_of_tuple (map Some v) = Some b /\ List.length (bleft b) = h /\ List.length (bright b) = h /\
  forall i (u : nat -> R -> R) x, (i < h)%nat ->
    (says u x (nth i (bleft b) (kD, Val 0)) <-> u i x = nth i v 0) /\
    (says u x (nth i (bright b) (kD, Val 0)) <-> u i x = nth (h + i) v 0).
Proof.
  assert (forall v, opt_vals (map Some v) = Some v) as OV by (induction v as [|x v IH]; cbn; [reflexivity|rewrite IH; reflexivity]).
  intros v h Hh Hv. eexists. split; [|split; [|split]].
  - unfold bc_of_tuple. rewrite OV, map_length, Hv. destruct v as [|v0 [|v1 [|v2 v]]]; cbn in Hv; try (destruct Hh as [<-|[<-|[<-|[<-|[<-|[]]]]]]; discriminate Hv).
    cbn [map]. assert (existsb (Nat.eqb (2 * h)) [4; 6; 8; 10; 12]%nat = true) as -> by (destruct Hh as [<-|[<-|[<-|[<-|[<-|[]]]]]]; reflexivity). reflexivity.
  - cbn [bleft]. rewrite Nat.mul_comm, Nat.div_mul, combine_length, map_length, firstn_length, Hv by lia. destruct Hh as [<-|[<-|[<-|[<-|[<-|[]]]]]]; reflexivity.
  - cbn [bright]. rewrite Nat.mul_comm, Nat.div_mul, combine_length, map_length, skipn_length, Hv by lia. destruct Hh as [<-|[<-|[<-|[<-|[<-|[]]]]]]; reflexivity.
  - intros i u x Hi. cbn [bleft bright]. rewrite Nat.mul_comm, Nat.div_mul by lia.
    destruct Hh as [<-|[<-|[<-|[<-|[<-|[]]]]]];
    (do 12 (destruct v as [|? v]; [try discriminate Hv|]; [cbn in Hv; try discriminate Hv|..]) || idtac);
    repeat (destruct v as [|? v]; [discriminate Hv || idtac|]; cbn in Hv; try discriminate Hv);
    repeat (destruct i as [|i]; [split; reflexivity|]); lia.
Qed.
Print Assumptions C31_tuple.

(** num_derivatives: the sum of the orders; a KeyError for the documented names W and N5 *)
Theorem C31_num_derivatives_refuted :
  (forall b, Forall (fun kv => key_order (fst kv) <> None) (bleft b ++ bright b) -> num_derivatives b <> None) /\
  (forall b, Exists (fun kv => fst kv = kW \/ fst kv = kN5) (bleft b ++ bright b) -> num_derivatives b = None).
Proof.
  unfold num_derivatives. split; intros b; generalize (bleft b ++ bright b); intros l H.
  - assert (forall n, fold_left (fun acc (kv : bckey * bcval) => match acc, key_order (fst kv) with Some n, Some k => Some (n + k)%nat | _, _ => None end) l (Some n) <> None) as A; [|apply A].
    induction H as [|kv l H1 H2 IH]; intros n; cbn; [discriminate|]. destruct (key_order (fst kv)); [apply IH|congruence].
  - assert (forall l, fold_left (fun acc (kv : bckey * bcval) => match acc, key_order (fst kv) with Some n, Some k => Some (n + k)%nat | _, _ => None end) l None = None) as N by (clear; induction l; cbn; auto).
    generalize (Some 0%nat). induction H as [kv l H|kv l H IH]; intros o; cbn; [|apply IH].
    destruct H as [-> | ->]; cbn; destruct o; apply N.
Qed.
Print Assumptions C31_num_derivatives_refuted.
Example C31_nonvacuity : let b := mkBc [(kN, Val 3); (kD, Val 2)] [(kN2, Val 8)] in
  orderednames b = ["LD"; "LN"; "RN2"]%string /\ orderedvals b = [2; 3; 8] /\
  orderedvals (bc_init b (Bounded unit_domain)) = [2; 3 / (2 / (1 - 0)); 8 / (2 / (1 - 0)) ^ 2] /\ num_derivatives b = Some 3%nat /\
  Forall rescaled_key (bleft b) /\ (exists u U, derivs u /\ derivs U /\ (forall X, U 0%nat X = u 0%nat (map_true_domain unit_domain reference X)) /\ Forall (says u 0) (bleft b)).
Proof.
  split; [reflexivity|split; [reflexivity|split; [reflexivity|split; [reflexivity|split; [repeat constructor|]]]]]. exists (fun i x => deriv_at i [2; 3] x), (fun i x => deriv_at i [7/2; 3/2] x).
  split; [apply poly_derivs|split; [apply poly_derivs|split]].
  - intros X. rewrite unit_map. cbn. field.
  - repeat constructor; cbn; lra.
Qed.

(** ** C43.  Q_m = g_m P_m^(alpha,beta).  [says] above is applied to finite sums of Q's. *)
Definition combination (g : nat -> R) (a b : R) (l : list (nat * R)) (k : nat) (x : R) : R :=
  wsum l (fun m => g m * deriv_at k (jacP a b m) x).
Lemma bnd_is_value g a b k r i : -1 < a -> -1 < b -> bnd g a b k r i = g i * deriv_at k (jacP a b i) (if r then 1 else -1).
Proof. intros Ha Hb. unfold bnd. destruct r; [rewrite bnd_right_ok|rewrite bnd_left_ok]; auto. Qed.
Lemma wsum_ext l f g : (forall i, f i = g i) -> wsum l f = wsum l g.
Proof. intros H. induction l as [|kv l IH]; cbn; [reflexivity|]. unfold wsum in IH. rewrite IH, H. reflexivity. Qed.
Lemma wsum_lin l f g c : wsum l (fun i => f i + c * g i) = wsum l f + c * wsum l g.
Proof. induction l as [|kv l IH]; cbn; [ring|]. unfold wsum in IH. rewrite IH. ring. Qed.
Definition with_rhs (kv : bckey * bcval) (d : R) : bckey * bcval :=
  match kv with (k, Val _) => (k, Val d) | (k, Pair c _) => (k, Pair c d) end.
(** well-formed: numbers for derivative conditions, pairs for R and W, no N5 *)
Definition supported (kv : bckey * bcval) : Prop :=
  match kv with (kR, Pair _ _) | (kW, Pair _ _) => True | (kN5, _) | (kR, _) | (kW, _) => False | (_, Val _) => True | _ => False end.
Lemma functional_says g a b r kv f l d : -1 < a -> -1 < b -> supported kv -> functional (bnd g a b) r kv = Some f ->
  (says (combination g a b l) (if r then 1 else -1) (with_rhs kv d) <-> wsum l f = d).
Proof.
  intros Ha Hb Hs Hf. destruct kv as [k [v|c v]]; destruct k; try destruct Hs; cbn in Hf; injection Hf as <-; cbn [with_rhs says]; unfold combination;
  try (match goal with |- context [bnd g a b ?k r] => rewrite (wsum_ext l (bnd g a b k r) (fun i => g i * deriv_at k (jacP a b i) (if r then 1 else -1))) by (intros; apply bnd_is_value; auto); reflexivity end).
  - rewrite wsum_lin, (wsum_ext l (bnd g a b 0 r) (fun i => g i * deriv_at 0 (jacP a b i) (if r then 1 else -1))), (wsum_ext l (bnd g a b 1 r) (fun i => g i * deriv_at 1 (jacP a b i) (if r then 1 else -1))) by (intros; apply bnd_is_value; auto). reflexivity.
  - rewrite wsum_lin, (wsum_ext l (bnd g a b 1 r) (fun i => g i * deriv_at 1 (jacP a b i) (if r then 1 else -1))), (wsum_ext l (bnd g a b 2 r) (fun i => g i * deriv_at 2 (jacP a b i) (if r then 1 else -1))) by (intros; apply bnd_is_value; auto). reflexivity.
Qed.
Definition shifted_stencil (n : nat) (l : list (nat * R)) : list (nat * R) := map (fun kv => ((n + fst kv)%nat, snd kv)) l.
Lemma wsum_shift n l f : wsum (shifted_stencil n l) f = wsum l (fun j => f (n + j)%nat).
Proof. induction l as [|kv l IH]; cbn; [reflexivity|]. unfold wsum, shifted_stencil in IH. rewrite IH. reflexivity. Qed.

(** get_stencil_matrix: whatever A.solve(b) returns, if it is a solution then the composite
    function number n satisfies every homogeneous condition, and its leading coefficient is one *)
Theorem C43_stencil : forall g alf bet b fs n M, -1 < alf -> -1 < bet ->
  Forall supported (bleft b) -> Forall supported (bright b) ->
  functionals (bnd g alf bet) b = Some fs ->
  (forall i, (i < num_bcs b)%nat -> rsum (num_bcs b) (fun j => st_matrix fs n i j * M j) = st_rhs fs n i) ->
  let phi := combination g alf bet (shifted_stencil n (stencil_of (num_bcs b) M)) in
  (forall kv, In kv (bleft b) -> says phi (-1) (with_rhs kv 0)) /\
  (forall kv, In kv (bright b) -> says phi 1 (with_rhs kv 0)) /\
  hd (0%nat, 0) (shifted_stencil n (stencil_of (num_bcs b) M)) = (n, 1).
Proof.
  intros g alf bet b fs n M Ha Hb Hl Hr Hf HM phi.
  assert (forall (r : bool) kv, In kv (if r then bright b else bleft b) -> says phi (if r then 1 else -1) (with_rhs kv 0)) as H.
  { intros r kv Hin. assert (supported kv) as Hs by (destruct r; rewrite Forall_forall in Hl, Hr; auto).
    apply conds_in in Hin. destruct (In_nth _ _ (false, (kD, Val 0)) Hin) as (i & Hi & Ei).
    rewrite functionals_conds in Hf. pose proof (opt_all_nth _ _ _ i (false, (kD, Val 0)) zerofun Hf Hi) as F. rewrite Ei in F. cbn [fst snd] in F.
    apply (functional_says g alf bet r kv _ _ 0 Ha Hb Hs F). rewrite wsum_shift, wsum_stencil.
    specialize (HM i). rewrite conds_num in HM. specialize (HM Hi). unfold st_matrix, st_rhs in HM. rewrite conds_num.
    rewrite Nat.add_0_r. rewrite (gsum_ext_R _ _ (fun j => nth i fs zerofun (n + (1 + j))%nat * M j)).
    - rewrite HM. ring.
    - intros j _. cbn [Nat.add]. ring. }
  split; [|split].
  - intros kv Hin. apply (H false kv Hin).
  - intros kv Hin. apply (H true kv Hin).
  - cbn. rewrite Nat.add_0_r. reflexivity.
Qed.
Print Assumptions C43_stencil.

(** get_bc_basis: if A.solve(eye) returned an inverse, the boundary functions psi_i combine, with
    the values of orderedvals(), to a function that satisfies the given conditions *)
Definition row (n : nat) (c : nat -> R) : list (nat * R) := map (fun j => (j, c j)) (seq 0 n).
Lemma wsum_row n c f : wsum (row n c) f = rsum n (fun j => c j * f j).
Proof.
  unfold row. induction n as [|n IH]; [reflexivity|]. rewrite seq_S, map_app. unfold wsum. rewrite fold_right_app.
  assert (forall l s, fold_right (fun kv s => snd kv * f (fst kv) + s) s l = wsum l f + s) as HS.
  { clear. induction l as [|a l IH]; intros s; cbn [wsum fold_right]; [ring|]. rewrite IH. unfold wsum. ring. }
  rewrite HS, IH. cbn. ring.
Qed.
Lemma rsum_skip first n (f : nat -> R) : rsum (first + n) (fun j => if (j <? first)%nat then 0 else f j) = rsum n (fun j => f (first + j)%nat).
Proof.
  induction n as [|n IH].
  - rewrite Nat.add_0_r. cbn [gsum]. apply gsum_zero. intros i Hi. destruct (Nat.ltb_spec i first); [reflexivity|lia].
  - rewrite Nat.add_succ_r. cbn [gsum]. rewrite IH. destruct (Nat.ltb_spec (first + n) first); [lia|reflexivity].
Qed.
Theorem C43_bc_basis : forall g alf bet b fs first inv, -1 < alf -> -1 < bet ->
  Forall supported (bleft b) -> Forall supported (bright b) ->
  functionals (bnd g alf bet) b = Some fs ->
  let nb := num_bcs b in
  (forall i k, (i < nb)%nat -> (k < nb)%nat -> rsum nb (fun j => bc_matrix fs first i j * inv j k) = if Nat.eqb i k then 1 else 0) ->
  let w := combination g alf bet (row (first + nb) (fun j => rsum nb (fun i => nth i (orderedvals b) 0 * bc_sol nb first inv i j))) in
  (forall kv, In kv (bleft b) -> says w (-1) kv) /\ (forall kv, In kv (bright b) -> says w 1 kv).
Proof.
  intros g alf bet b fs first inv Ha Hb Hl Hr Hf nb HI w.
  assert (forall (r : bool) kv, In kv (if r then bright b else bleft b) -> says w (if r then 1 else -1) kv) as H.
  { intros r kv Hin. assert (supported kv) as Hs by (destruct r; rewrite Forall_forall in Hl, Hr; auto).
    apply conds_in in Hin. destruct (In_nth _ _ (false, (kD, Val 0)) Hin) as (i & Hi & Ei).
    rewrite functionals_conds in Hf. pose proof (opt_all_nth _ _ _ i (false, (kD, Val 0)) zerofun Hf Hi) as F. rewrite Ei in F. cbn [fst snd] in F.
    assert (kv = with_rhs kv (rhs (snd kv))) as Ek by (destruct kv as [k [v|c d]]; reflexivity). rewrite Ek.
    apply (functional_says g alf bet r kv _ _ _ Ha Hb Hs F). rewrite wsum_row.
    assert (i < nb)%nat as Hi' by (unfold nb; rewrite conds_num; exact Hi).
    assert (nth i (orderedvals b) 0 = rhs (snd kv)) as Ev.
    { rewrite conds_vals. rewrite (nth_indep _ 0 (rhs (snd (snd (false, (kD, Val 0)))))) by (rewrite map_length; exact Hi).
      rewrite (map_nth (fun t => rhs (snd (snd t))) (conds b) (false, (kD, Val 0)) i). rewrite Ei. reflexivity. }
    set (fi := nth i fs zerofun) in *.
    transitivity (rsum (first + nb) (fun j => rsum nb (fun i0 => nth i0 (orderedvals b) 0 * (bc_sol nb first inv i0 j * fi j)))).
    { apply gsum_ext_R. intros j _. rewrite Rmult_comm, <- gsum_scal. apply gsum_ext_R. intros; ring. }
    rewrite gsum_swap. rewrite (gsum_ext_R nb _ (fun i0 => if Nat.eqb i0 i then rhs (snd kv) else 0)).
    - apply gsum_one; auto.
    - intros i0 Hi0. rewrite gsum_scal.
      rewrite (gsum_ext_R (first + nb) _ (fun j => if (j <? first)%nat then 0 else inv (j - first)%nat i0 * fi j)) by (intros j _; unfold bc_sol; destruct (j <? first)%nat; ring).
      rewrite (rsum_skip first nb (fun j => inv (j - first)%nat i0 * fi j)).
      rewrite (gsum_ext_R nb _ (fun j => bc_matrix fs first i j * inv j i0)) by (intros j _; unfold bc_matrix; fold fi; replace (first + j - first)%nat with j by lia; ring).
      rewrite HI by auto. rewrite (Nat.eqb_sym i i0). destruct (Nat.eqb_spec i0 i) as [->|]; [rewrite Ev|]; ring. }
  split; [intros kv Hin; apply (H false kv Hin)|intros kv Hin; apply (H true kv Hin)].
Qed.
Print Assumptions C43_bc_basis.
(** but the boundary basis cannot be found for the documented W conditions (num_derivatives), and
    neither basis for N5 *)
Theorem C43_conditions_refuted : forall bd b,
  (Exists (fun kv => fst kv = kW) (bleft b) -> num_derivatives b = None) /\
  (Exists (fun kv => fst kv = kN5) (bleft b) -> functionals bd b = None).
Proof.
  intros bd b. split; intros H.
  - apply C31_num_derivatives_refuted. apply Exists_app. left. eapply Exists_impl; [|exact H]. auto.
  - rewrite functionals_conds. apply Exists_exists in H as (kv & Hin & E).
    assert (In (false, kv) (conds b)) as Hc by (apply conds_in; exact Hin). clear Hin. induction (conds b) as [|t l IH]; [destruct Hc|].
    cbn [map opt_all]. destruct Hc as [->|Hc].
    + cbn [fst snd]. destruct kv as [k v]. cbn in E. subst k. reflexivity.
    + rewrite (IH Hc). destruct (functional bd (fst t) (snd t)); reflexivity.
Qed.
Print Assumptions C43_conditions_refuted.
(** Legendre, Dirichlet on both sides: M = (0, -1), stencil {0: 1, 2: -1} *)
Example C43_nonvacuity : forall n, let b := mkBc [(kD, Val 0)] [(kD, Val 0)] in
  exists fs, functionals (bnd (fun _ => 1) 0 0) b = Some fs /\
  forall i, (i < 2)%nat -> rsum 2 (fun j => st_matrix fs n i j * (match j with O => 0 | _ => -1 end)) = st_rhs fs n i.
Proof.
  intros n b. eexists. split; [reflexivity|]. intros i Hi.
  assert (forall m, bnd (fun _ => 1) 0 0 0 true m = 1) as A.
  { intros m. rewrite bnd_is_value by lra. rewrite bnd_right_ok by lra. unfold bnd_right, binomial. rewrite Z.sub_0_r. destruct (Z.ltb_spec (Z.of_nat m) 0); [lia|]. rewrite Nat2Z.id, Rplus_0_r.
    assert (forall k, binomial_nat (INR k) k = 1) as B.
    { assert (forall k y, binomial_nat (y + 1) (S k) = (y + 1) / (INR k + 1) * binomial_nat y k) as P.
      { induction k as [|k IHk]; intros y; [cbn; field|]. cbn [binomial_nat] in *. rewrite (IHk y). rewrite S_INR. pose proof (pos_INR k). field. lra. }
      induction k as [|k IHk]; [reflexivity|]. rewrite S_INR, P, IHk. pose proof (pos_INR k). field. lra. }
    rewrite B. ring. }
  assert (forall m, bnd (fun _ => 1) 0 0 0 false (m + 2) = bnd (fun _ => 1) 0 0 0 false m) as B.
  { intros m. unfold bnd, bnd_left. specialize (A m) as A1. specialize (A (m + 2)%nat) as A2. unfold bnd, bnd_right in A1, A2.
    cbn [Nat.add pow]. replace (INR (m + 2) + 0 + 0 + 1) with (INR (m + 2) + 0 + 0 + 1) by ring. rewrite pow_add.
    transitivity ((-1) ^ m * (-1) ^ 2 * (1 * (1 * binomial (INR (m + 2) + 0) (Z.of_nat (m + 2) - Z.of_nat 0)))); [ring|]. rewrite A2.
    transitivity ((-1) ^ m * (1 * (1 * binomial (INR m + 0) (Z.of_nat m - Z.of_nat 0)))); [rewrite A1; ring|ring]. }
  destruct i as [|[|i]]; [| |lia]; cbn [gsum st_matrix st_rhs nth]; unfold st_matrix, st_rhs; cbn [nth].
  - replace (n + (1 + 1))%nat with (n + 2)%nat by lia. rewrite B. ring.
  - rewrite !A. ring.
Qed.
