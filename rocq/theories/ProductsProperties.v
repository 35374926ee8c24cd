(** ProductsProperties.v -- C28 (cross, outer, dot), C38 (CachedArrayDict), C40 (wrap_periodic).
    [h x j p] is component j of array x at grid point p; [h'] is the heap after the call. *)
From Coq Require Import Arith ZArith Lia List Bool QArith Qcanon.
From Verif Require Import Base Fld Witness ProductsModel ProductsProofs.
Import ListNotations.
Local Open Scope nat_scope.

(** *** specification: the Levi-Civita cross product, written by its cyclic components *)
Definition cross_spec {K : Fld} (a b : nat -> K) (j : nat) : K :=
  fsub (fmul (a ((j + 1) mod 3)) (b ((j + 2) mod 3))) (fmul (a ((j + 2) mod 3)) (b ((j + 1) mod 3))).

(** ** C28 *)
(** cross: every component at every point of c, nothing else changes; c distinct from a and b
    (a and b may be the same array) *)
Theorem C28_cross : forall (K : Fld) (h : heap K) c a b, c <> a -> c <> b ->
  (forall j p, j < 3 -> cross3D K h c a b c j p = cross_spec (fun i => h a i p) (fun i => h b i p) j) /\
  (forall p, cross2D K h c a b c 0 p = fsub (fmul (h a 0 p) (h b 1 p)) (fmul (h a 1 p) (h b 0 p))) /\
  (forall x j p, x <> c -> cross3D K h c a b x j p = h x j p /\ cross2D K h c a b x j p = h x j p).
Proof.
  intros K h c a b H1 H2. split; [|split].
  - intros j p Hj. rewrite cross3D_at by auto. rewrite Nat.eqb_refl. destruct j as [|[|[|j]]]; try lia; reflexivity.
  - intros p. rewrite cross2D_at, Nat.eqb_refl. reflexivity.
  - intros x j p Hx. rewrite cross3D_at, cross2D_at by auto. destruct (Nat.eqb_spec x c); [contradiction|]. auto.
Qed.
Print Assumptions C28_cross.

(** the Cython version needs no such hypothesis: c may be a or b *)
Theorem C28_cross_cython : forall (K : Fld) n (h : heap K) c a b,
  (forall j p, j < 3 -> p < n -> cross3D_cy K n h c a b c j p = cross_spec (fun i => h a i p) (fun i => h b i p) j) /\
  (forall p, p < n -> cross2D_cy K n h c a b c 0 p = fsub (fmul (h a 0 p) (h b 1 p)) (fmul (h a 1 p) (h b 0 p))) /\
  (forall x j p, x <> c \/ n <= p -> cross3D_cy K n h c a b x j p = h x j p /\ cross2D_cy K n h c a b x j p = h x j p).
Proof.
  intros K n h c a b. split; [|split].
  - intros j p Hj Hp. rewrite cross3D_cy_at. rewrite Nat.eqb_refl. destruct (Nat.ltb_spec p n); [|lia]. destruct j as [|[|[|j]]]; try lia; reflexivity.
  - intros p Hp. rewrite cross2D_cy_at, !Nat.eqb_refl. destruct (Nat.ltb_spec p n); [reflexivity|lia].
  - intros x j p Hx. rewrite cross3D_cy_at, cross2D_cy_at. destruct (Nat.eqb_spec x c), (Nat.ltb_spec p n); cbn [andb]; auto. destruct Hx; [contradiction|lia].
Qed.
Print Assumptions C28_cross_cython.

(** the Python version is wrong in place: c is a, with a = (1, 2, 3), b = (4, 5, 6) at a point *)
Definition hx : heap QcFld := fun x j p => match x, j with 0, 0 => qc 1 | 0, 1 => qc 2 | 0, 2 => qc 3 | 1, 0 => qc 4 | 1, 1 => qc 5 | 1, 2 => qc 6 | _, _ => qc 0 end.
Theorem C28_cross_in_place_refuted : exists j, j < 3 /\
  cross3D QcFld hx 0 0 1 0 j 0 <> cross_spec (fun i => hx 0 i 0) (fun i => hx 1 i 0) j /\
  cross3D_cy QcFld 1 hx 0 0 1 0 j 0 = cross_spec (fun i => hx 0 i 0) (fun i => hx 1 i 0) j.
Proof. exists 1. split; [lia|]. split; [apply qeqb_false|apply qeqb_true]; vm_compute; reflexivity. Qed.
Print Assumptions C28_cross_in_place_refuted.

(** outer: c[dim*i + j] = a[i] b[j] at every point, distinct and identical arguments ... *)
Theorem C28_outer_cython : forall (K : Fld) dim n (h : heap K) a b c, c <> a -> c <> b -> dim = 2 \/ dim = 3 ->
  (forall i j p, i < dim -> j < dim -> p < n -> outer_cy K dim n h a b c c (dim * i + j) p = fmul (h a i p) (h b j p)) /\
  (forall x j p, x <> c -> outer_cy K dim n h a b c x j p = h x j p).
Proof.
  intros K dim n h a b c H1 H2 Hd. split; [|intros; apply outer_cy_frame; auto].
  intros i j p Hi Hj Hp. destruct Hd as [-> | ->]; [apply (outer2D_cy_at K n h a b c (Nat.eqb a b))|apply (outer3D_cy_at K n h a b c (Nat.eqb a b))]; auto;
  intros E; apply Nat.eqb_eq in E; exact E.
Qed.
Print Assumptions C28_outer_cython.

(** ... but the Python version, for a three-dimensional vector with itself, copies c[5] to c[7]
    before it computes c[5]: entry (2, 1) is excluded *)
Theorem C28_outer_partial : forall (K : Fld) dim (h : heap K) a b c, c <> a -> c <> b -> dim = 2 \/ dim = 3 ->
  (forall i j p, i < dim -> j < dim -> dim = 2 \/ a <> b \/ (i, j) <> (2, 1) -> outer K dim h a b c c (dim * i + j) p = fmul (h a i p) (h b j p)) /\
  (forall x j p, x <> c -> outer K dim h a b c x j p = h x j p).
Proof.
  intros K dim h a b c H1 H2 Hd. split; [|intros; apply outer_frame; auto].
  intros i j p Hi Hj Hx. apply outer_py; auto. destruct Hd as [-> | ->]; [auto|]. right. split; auto. destruct Hx as [Hx|Hx]; [lia|exact Hx].
Qed.
Print Assumptions C28_outer_partial.
(** and there the result is whatever the array held before, for every heap *)
Theorem C28_outer_self_refuted : forall (K : Fld) (h : heap K) a c p, c <> a ->
  outer K 3 h a a c c (3 * 2 + 1) p = h c 5 p.
Proof.
  intros K h a c p Hc. cbn [outer]. rewrite Nat.eqb_refl. unfold outer3D, andthen, store. rewrite !Nat.eqb_refl. cbn. reflexivity.
Qed.
Print Assumptions C28_outer_self_refuted.
Example C28_outer_self_example : outer QcFld 3 hx 0 0 2 2 7 0 <> fmul (hx 0 2 0) (hx 0 1 0).
Proof. apply qeqb_false. vm_compute. reflexivity. Qed.

(** dot: sum over the contracted indices, weighted by the metric tensor g in curvilinear
    coordinates; rank 1 or 2 on either side.  gz i j is the symbolic test gij == 0. *)
Theorem C28_dot_cartesian : forall (K : Fld) D,
  (forall u v, dot11_cart K D u v = fsum D (fun i => fmul (u i) (v i))) /\
  (forall u v i, i < D -> dot21_cart K D u v i = fsum D (fun j => fmul (u i j) (v j))) /\
  (forall u v j, j < D -> dot12_cart K D u v j = fsum D (fun i => fmul (u i) (v i j))) /\
  (forall u v i k, i < D -> k < D -> dot22_cart K D u v i k = fsum D (fun j => fmul (u i j) (v j k))).
Proof.
  intros K D. split; [|split; [|split]].
  - intros u v. unfold dot11_cart. rewrite acc1. apply (Ring_theory.Radd_0_l (fringlaws K)).
  - intros. apply dot21_cart_ok; auto.
  - intros. apply dot12_cart_ok; auto.
  - intros. apply dot22_cart_ok; auto.
Qed.
Print Assumptions C28_dot_cartesian.
Theorem C28_dot_curvilinear : forall (K : Fld) D (g : ten K) gz, (forall i j, gz i j = true -> g i j = f0) ->
  (forall u v, dot11_curv K D g gz u v = fsum D (fun i => fsum D (fun j => fmul (fmul (u i) (v j)) (g i j)))) /\
  (forall u v, (forall i j, i <> j -> g i j = f0) -> dot11_orth K D g u v = fsum D (fun i => fsum D (fun j => fmul (fmul (u i) (v j)) (g i j)))) /\
  (forall u v i, i < D -> dot21_curv K D g gz u v i = fsum D (fun j => fsum D (fun k => fmul (fmul (u i j) (v k)) (g j k)))) /\
  (forall u v k, k < D -> dot12_curv K D g gz u v k = fsum D (fun i => fsum D (fun j => fmul (fmul (u i) (v j k)) (g i j)))) /\
  (forall u v i l, i < D -> l < D -> dot22_curv K D g gz u v i l = fsum D (fun j => fsum D (fun k => fmul (fmul (u i j) (v k l)) (g j k)))).
Proof.
  intros K D g gz Hg. split; [|split; [|split; [|split]]].
  - intros. apply dot11_curv_ok; auto.
  - intros. apply dot11_orth_ok; auto.
  - intros. apply dot21_curv_ok; auto.
  - intros. apply dot12_curv_ok; auto.
  - intros. apply dot22_curv_ok; auto.
Qed.
Print Assumptions C28_dot_curvilinear.
Example C28_nonvacuity :
  cross3D QcFld hx 2 0 1 2 0 0 = qc (-3) /\ outer_cy QcFld 3 1 hx 0 0 2 2 7 0 = qc 6 /\
  dot11_curv QcFld 2 (fun i j => if Nat.eqb i j then qc 2 else qc 1) (fun _ _ => false) (fun i => qc (Z.of_nat i)) (fun i => qc 5) = qc 15.
Proof. split; [|split]; apply qeqb_true; vm_compute; reflexivity. Qed.

(** ** C38 -- histories are lists of requests (with or without zeroing), deletions and writes of
    callers into arrays they hold; the content of a fresh np.empty array is arbitrary *)
Theorem C38_same_key_same_array : forall (K : Fld) ops k fill junk ops' fill' junk',
  (forall k', In (CDel K k') ops' -> k' <> k) ->
  let r := ca_get K junk (ca_run K ops) k fill in
  let r' := ca_get K junk' (fold_left (ca_step K) ops' (fst r)) k fill' in
  snd r' = snd r.
Proof.
  intros K ops k fill junk ops' fill' junk' Hd r r'. assert (ca_find k (ca_data K (fold_left (ca_step K) ops' (fst r))) = Some (snd r)) as E.
  { apply fold_find; auto; [apply get_inv, run_inv|apply get_find]. }
  unfold r', ca_get. rewrite E. destruct fill'; reflexivity.
Qed.
Print Assumptions C38_same_key_same_array.

Theorem C38_different_keys_different_arrays : forall (K : Fld) ops k1 fill1 junk1 ops' k2 fill2 junk2,
  k1 <> k2 -> (forall k', In (CDel K k') ops' -> k' <> k1) ->
  let r1 := ca_get K junk1 (ca_run K ops) k1 fill1 in
  let r2 := ca_get K junk2 (fold_left (ca_step K) ops' (fst r1)) k2 fill2 in
  snd r1 <> snd r2.
Proof.
  intros K ops k1 fill1 junk1 ops' k2 fill2 junk2 Hk Hd r1 r2 E.
  assert (ProductsProofs.inv K (fst r2)) as (I1 & I2 & I3).
  { apply get_inv. clear - Hd. assert (ProductsProofs.inv K (fst r1)) as H by apply get_inv, run_inv. revert H. generalize (fst r1). clear.
    induction ops' as [|o l IH]; intros c H; simpl; auto. apply IH, step_inv, H. }
  assert (ca_find k1 (ca_data K (fst r2)) = Some (snd r1)) as F1.
  { unfold r2.
    assert (fst (ca_get K junk2 (fold_left (ca_step K) ops' (fst r1)) k2 fill2) = fold_left (ca_step K) (ops' ++ [CGet K k2 fill2 junk2]) (fst r1)) as -> by (rewrite fold_left_app; reflexivity).
    apply fold_find; [apply get_inv, run_inv| |apply get_find]. intros k' Hin. apply in_app_or in Hin. destruct Hin as [Hin|[Hin|[]]]; [apply Hd; auto|discriminate]. }
  assert (ca_find k2 (ca_data K (fst r2)) = Some (snd r2)) as F2 by apply get_find.
  apply find_in in F1, F2. rewrite E in F1. clear - F1 F2 I2 Hk.
  revert I2 F1 F2. generalize (ca_data K (fst r2)) (snd r2). intros l v. induction l as [|[k w] l IH]; simpl; [tauto|].
  intros Hn [[= -> ->]|H1] [H2|H2].
  - congruence.
  - inversion Hn; subst. match goal with H : ~ In _ _ |- _ => apply H end. apply in_map_iff. exists (k2, v). auto.
  - injection H2 as -> ->. inversion Hn; subst. match goal with H : ~ In _ _ |- _ => apply H end. apply in_map_iff. exists (k1, v). auto.
  - inversion Hn; subst. auto.
Qed.
Print Assumptions C38_different_keys_different_arrays.

(** fill: the returned array is zero; no fill: an existing array is returned with its content;
    all other arrays keep theirs *)
Theorem C38_contents : forall (K : Fld) ops k fill junk,
  let c := ca_run K ops in
  let r := ca_get K junk c k fill in
  (fill = true -> forall i, ca_mem K (fst r) (snd r) i = f0) /\
  (fill = false -> forall v, ca_find k (ca_data K c) = Some v -> snd r = v /\ forall i, ca_mem K (fst r) v i = ca_mem K c v i) /\
  (forall k' v, k' <> k -> ca_find k' (ca_data K c) = Some v -> forall i, ca_mem K (fst r) v i = ca_mem K c v i).
Proof.
  intros K ops k fill junk c r. pose proof (run_inv K ops) as (I1 & I2 & I3). fold c in I1, I2, I3. unfold r, ca_get.
  destruct (ca_find k (ca_data K c)) as [w|] eqn:E; split; [|split| |split].
  - intros ->. cbn. intros i. unfold upd. rewrite Nat.eqb_refl. reflexivity.
  - intros -> v [= ->]. auto.
  - intros k' v N F i. destruct fill; [|reflexivity]. cbn. unfold upd. destruct (Nat.eqb_spec v w) as [->|]; [|reflexivity]. exfalso.
    apply find_in in F, E. clear - E F I2 N. induction (ca_data K c) as [|[k0 w0] l IH]; simpl in *; [tauto|].
    inversion I2; subst. destruct E as [[= -> ->]|E], F as [F|F]; try congruence; auto; [|injection F as -> ->]; apply H1, in_map_iff; eexists; split; try eassumption; reflexivity.
  - intros ->. cbn. intros i. unfold upd. rewrite Nat.eqb_refl. reflexivity.
  - intros -> v [=].
  - intros k' v N F i. assert (v <> ca_next K c) as Nv by (apply find_in in F; rewrite Forall_forall in I3; specialize (I3 _ F); cbn in I3; lia).
    destruct fill; cbn; unfold upd; destruct (Nat.eqb_spec v (ca_next K c)); try contradiction; reflexivity.
Qed.
Print Assumptions C38_contents.
Example C38_nonvacuity : let k i : wkey := ([3; 4], 0, i) in
  let c := ca_run QcFld [CGet QcFld (k 0) true (fun _ => qc 7); CWrite QcFld 0 2 (qc 5); CGet QcFld (k 1) false (fun _ => qc 9)] in
  ca_find (k 0) (ca_data QcFld c) = Some 0 /\ ca_find (k 1) (ca_data QcFld c) = Some 1 /\
  ca_mem QcFld c 0 2 = qc 5 /\ ca_mem QcFld c 1 2 = qc 9 /\ ca_mem QcFld (fst (ca_get QcFld (fun _ => qc 1) c (k 1) true)) 1 2 = qc 0.
Proof. repeat split. Qed.

(** ** C40 -- the result has one more entry along every wrapped axis and entry idx is entry
    idx mod shape (along those axes) of x *)
Theorem C40_wrap_periodic_partial : forall (T : Type) (x : arr T) (ax0 ax1 ax2 : bool),
  let sh := a_shape T x in
  let ax k := match k with 0 => ax0 | 1 => ax1 | 2 => ax2 | _ => false end in
  (ax0 = true -> length sh = 2) -> (ax1 = true -> 2 <= length sh) -> (ax2 = true -> 3 <= length sh) ->
  (forall k, ax k = true -> 0 < nth k sh 0) ->
  exists y, wrap_periodic T x ax0 ax1 ax2 = Some y /\
    length (a_shape T y) = length sh /\
    (forall k, k < length sh -> nth k (a_shape T y) 0 = nth k sh 0 + if ax k then 1 else 0) /\
    forall idx src, length idx = length sh -> length src = length sh ->
      (forall k, k < length sh -> nth k idx 0 < nth k (a_shape T y) 0) ->
      (forall k, k < length sh -> nth k src 0 = if ax k then nth k idx 0 mod nth k sh 0 else nth k idx 0) ->
      a_at T y idx = a_at T x src.
Proof. intros T x ax0 ax1 ax2 sh ax H0 H1 H2 Hp. apply (wrap_periodic_ok T x ax0 ax1 ax2 H0 H1 H2 Hp). Qed.
Print Assumptions C40_wrap_periodic_partial.
(** for arrays that are not two-dimensional, axis 0 cannot be wrapped: np.vstack raises *)
Theorem C40_first_axis_refuted : forall (T : Type) (x : arr T) (ax1 ax2 : bool), 3 <= length (a_shape T x) ->
  wrap_periodic T x true ax1 ax2 = None.
Proof. intros T x ax1 ax2 H. unfold wrap_periodic, wrap0. destruct (a_shape T x) as [|n [|m [|k l]]]; simpl in H; try lia. destruct n as [|[|n]]; reflexivity. Qed.
Print Assumptions C40_first_axis_refuted.
Example C40_nonvacuity : exists y, wrap_periodic nat (mkArr nat [2; 3] (fun idx => nth 0 idx 0 * 3 + nth 1 idx 0)) true true false = Some y /\
  a_shape nat y = [3; 4] /\ a_at nat y [2; 3] = 0 /\ a_at nat y [1; 3] = 3 /\ a_at nat y [2; 1] = 1.
Proof. eexists. split; [reflexivity|]. repeat split. Qed.
