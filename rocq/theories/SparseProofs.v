(** SparseProofs.v *)
From Coq Require Import Arith ZArith List Lia Bool Field Permutation Sorted.
From Verif Require Import Base Fld SolversModel SolversSpec SparseModel SparseSpec.
Import ListNotations.
Local Open Scope nat_scope.

Lemma fold_left_inv {A B} (P : A -> Prop) (f : A -> B -> A) l :
  forall a, P a -> (forall a b, In b l -> P a -> P (f a b)) -> P (fold_left f l a).
Proof.
  induction l as [|b l IH]; intros a Ha H; simpl; auto.
  apply IH; [apply H; simpl; auto | intros; apply H; simpl; auto].
Qed.

Section P.
  Variable K : Fld.
  Add Field KF : (flaws K).
  Notation vec := (nat -> K).
  Notation dval := (dval K).
  Notation smat := (smat K).
  Local Open Scope fld_scope.

  (** the contribution of one diagonal to row i of the product *)
  Definition contrib (N M : nat) (kv : Z * dval) (v : vec) (i : nat) : K :=
    let c := (Z.of_nat i + fst kv)%Z in
    if (i <? N)%nat && (0 <=? c)%Z && (c <? Z.of_nat M)%Z
    then dget K (snd kv) (Nat.min i (Z.to_nat c)) * v (Z.to_nat c) else 0.

  Definition item_ok (N M : nat) (kv : Z * dval) : Prop :=
    (- Z.of_nat N < fst kv < Z.of_nat M)%Z /\
    match snd kv with Scal _ _ => True | Arr _ n _ => n = diag_len N M (fst kv) end.

  Ltac bools := repeat match goal with
    | |- context [(?a <=? ?b)%nat] => destruct (Nat.leb_spec a b)
    | |- context [(?a <? ?b)%nat] => destruct (Nat.ltb_spec a b)
    | |- context [(?a <=? ?b)%Z] => destruct (Z.leb_spec a b)
    | |- context [(?a <? ?b)%Z] => destruct (Z.ltb_spec a b)
    end.

  Lemma matvec_step_ok N M Lc Lv v c kv : item_ok N M kv -> N <= Lc -> M <= Lv ->
    exists c', matvec_step K N M Lc Lv v (Some c) kv = Some c' /\
      forall i, c' i = c i + contrib N M kv v i.
  Proof.
    destruct kv as [key val]. intros [Hk Hv] HN HM. simpl in Hk, Hv.
    unfold matvec_step, contrib. simpl.
    destruct (Z.ltb_spec key 0) as [C|C]; unfold add_slice.
    - set (s := pyidx Lc (- key)). set (e := pyidx Lc (Z.min (Z.of_nat N) (Z.of_nat M - key))).
      set (s2 := pyidx Lv 0). set (e2 := pyidx Lv (Z.min (Z.of_nat M) (Z.of_nat N + key))).
      assert (Es : Z.of_nat s = (- key)%Z) by (unfold s, pyidx; bools; lia).
      assert (Ee : Z.of_nat e = Z.min (Z.of_nat N) (Z.of_nat M - key)) by (unfold e, pyidx; bools; lia).
      assert (Es2 : s2 = 0%nat) by (unfold s2, pyidx; bools; lia).
      assert (Ee2 : Z.of_nat e2 = Z.min (Z.of_nat M) (Z.of_nat N + key)) by (unfold e2, pyidx; bools; lia).
      clearbody s e s2 e2. subst s2.
      assert (EL : (e2 - 0 = e - s)%nat) by lia.
      destruct val as [x|n f].
      + rewrite EL, Nat.eqb_refl. eexists. split; [reflexivity|]. intros i. simpl.
        destruct (Nat.ltb_spec i N), (Z.leb_spec 0 (Z.of_nat i + key)), (Z.ltb_spec (Z.of_nat i + key) (Z.of_nat M));
          destruct (Nat.leb_spec s i), (Nat.ltb_spec i (s + (e - s))%nat); simpl; try lia; try ring.
        replace (i - s)%nat with (Z.to_nat (Z.of_nat i + key)) by lia. ring.
      + assert (En : n = (e2 - 0)%nat) by (subst n; unfold diag_len; lia).
        rewrite (proj2 (Nat.eqb_eq _ _) En), EL, Nat.eqb_refl.
        eexists. split; [reflexivity|]. intros i. simpl.
        destruct (Nat.ltb_spec i N), (Z.leb_spec 0 (Z.of_nat i + key)), (Z.ltb_spec (Z.of_nat i + key) (Z.of_nat M));
          destruct (Nat.leb_spec s i), (Nat.ltb_spec i (s + (e - s))%nat); simpl; try lia; try ring.
        replace (i - s)%nat with (Z.to_nat (Z.of_nat i + key)) by lia.
        replace (Nat.min i (Z.to_nat (Z.of_nat i + key))) with (Z.to_nat (Z.of_nat i + key)) by lia. ring.
    - set (s := pyidx Lc 0). set (e := pyidx Lc (Z.min (Z.of_nat N) (Z.of_nat M - key))).
      set (s2 := pyidx Lv key). set (e2 := pyidx Lv (Z.min (Z.of_nat M) (Z.of_nat N + key))).
      assert (Es : s = 0%nat) by (unfold s, pyidx; bools; lia).
      assert (Ee : Z.of_nat e = Z.min (Z.of_nat N) (Z.of_nat M - key)) by (unfold e, pyidx; bools; lia).
      assert (Es2 : Z.of_nat s2 = key) by (unfold s2, pyidx; bools; lia).
      assert (Ee2 : Z.of_nat e2 = Z.min (Z.of_nat M) (Z.of_nat N + key)) by (unfold e2, pyidx; bools; lia).
      clearbody s e s2 e2. subst s.
      assert (EL : (e2 - s2 = e - 0)%nat) by lia.
      destruct val as [x|n f].
      + rewrite EL, Nat.eqb_refl. eexists. split; [reflexivity|]. intros i. simpl.
        destruct (Nat.ltb_spec i N), (Z.leb_spec 0 (Z.of_nat i + key)), (Z.ltb_spec (Z.of_nat i + key) (Z.of_nat M));
          destruct (Nat.ltb_spec i (e - 0)%nat); simpl; try lia; try ring.
        replace (Z.to_nat (Z.of_nat i + key)) with (s2 + (i - 0))%nat by lia. ring.
      + assert (En : n = (e2 - s2)%nat) by (subst n; unfold diag_len; lia).
        rewrite (proj2 (Nat.eqb_eq _ _) En), EL, Nat.eqb_refl.
        eexists. split; [reflexivity|]. intros i. simpl.
        destruct (Nat.ltb_spec i N), (Z.leb_spec 0 (Z.of_nat i + key)), (Z.ltb_spec (Z.of_nat i + key) (Z.of_nat M));
          destruct (Nat.ltb_spec i (e - 0)%nat); simpl; try lia; try ring.
        replace (Z.to_nat (Z.of_nat i + key)) with (s2 + (i - 0))%nat by lia.
        replace (Nat.min i (s2 + (i - 0))) with (i - 0)%nat by lia. ring.
  Qed.

  Fixpoint contribs (N M : nat) (l : list (Z * dval)) (v : vec) (i : nat) : K :=
    match l with [] => 0 | kv :: r => contrib N M kv v i + contribs N M r v i end.

  Lemma matvec_fold N M Lc Lv v : N <= Lc -> M <= Lv -> forall l c,
    Forall (item_ok N M) l ->
    exists c', fold_left (matvec_step K N M Lc Lv v) l (Some c) = Some c' /\
      forall i, c' i = c i + contribs N M l v i.
  Proof.
    intros HN HM. induction l as [|kv l IH]; intros c Hl.
    - exists c. split; [reflexivity|]. intros. simpl. ring.
    - inversion Hl; subst. destruct (matvec_step_ok N M Lc Lv v c kv) as (c1 & E1 & H1'); auto.
      destruct (IH c1) as (c2 & E2 & H2'); auto.
      exists c2. split; [change (fold_left (matvec_step K N M Lc Lv v) l (matvec_step K N M Lc Lv v (Some c) kv) = Some c2); rewrite E1; auto|]. intros i. rewrite H2', H1'. simpl. ring.
  Qed.

  Lemma lookup_not_in l o : ~ In o (map fst l) -> lookup K l o = None.
  Proof.
    induction l as [|[k v] l IH]; simpl; intros H; auto.
    destruct (Z.eq_dec k o); [exfalso; auto|]. apply IH; auto.
  Qed.

  Lemma contribs_sum N M l v i : NoDup (map fst l) -> i < N ->
    contribs N M l v i
    = fsum M (fun j => match lookup K l (Z.of_nat j - Z.of_nat i) with
                       | None => 0 | Some d => dget K d (Nat.min i j) end * v j).
  Proof.
    induction l as [|[k w] l IH]; intros Hn Hi; simpl contribs.
    - symmetry. apply fsum_zero. intros j Hj. simpl. ring.
    - inversion Hn as [|? ? Hnin Hn']; subst. rewrite IH by auto.
      transitivity (fsum M (fun j => if (j =? Z.to_nat (Z.of_nat i + k))%nat
                                     then (if (0 <=? Z.of_nat i + k)%Z then dget K w (Nat.min i j) * v j else 0) else 0)
        + fsum M (fun j => match lookup K l (Z.of_nat j - Z.of_nat i) with
                           | None => 0 | Some d => dget K d (Nat.min i j) end * v j)).
      + f_equal. rewrite fsum_delta. unfold contrib. simpl.
        destruct (Nat.ltb_spec i N); [|lia]. simpl.
        destruct (Z.leb_spec 0 (Z.of_nat i + k)), (Z.ltb_spec (Z.of_nat i + k) (Z.of_nat M)),
          (Nat.ltb_spec (Z.to_nat (Z.of_nat i + k)) M); simpl; try lia; reflexivity.
      + rewrite <- fsum_add. apply fsum_ext. intros j Hj. simpl.
        destruct (Z.eq_dec k (Z.of_nat j - Z.of_nat i)) as [E|E].
        * rewrite lookup_not_in by congruence.
          destruct (Nat.eqb_spec j (Z.to_nat (Z.of_nat i + k))); [|lia].
          destruct (Z.leb_spec 0 (Z.of_nat i + k)); [|lia]. ring.
        * destruct (Nat.eqb_spec j (Z.to_nat (Z.of_nat i + k))); [|ring].
          destruct (Z.leb_spec 0 (Z.of_nat i + k)); [lia|ring].
  Qed.

  Lemma contribs_out N M l v i : N <= i -> contribs N M l v i = 0.
  Proof.
    intros H. induction l as [|kv l IH]; simpl; auto. rewrite IH. unfold contrib.
    destruct (Nat.ltb_spec i N); [lia|]. simpl. ring.
  Qed.

  Lemma matvec_correct (A : smat) Lc Lv v : wf K A -> sm_rows K A <= Lc -> sm_cols K A <= Lv ->
    exists c, matvec K A Lc Lv v = Some c /\
      (forall i, i < sm_rows K A -> c i = mat_vec K (sm_cols K A) (mat_entry K A) v i) /\
      (forall i, sm_rows K A <= i -> c i = 0).
  Proof.
    intros [Hn Hf] H1 H2. unfold matvec.
    destruct (matvec_fold (sm_rows K A) (sm_cols K A) Lc Lv v H1 H2 (sm_items K A) (fun _ => 0) Hf)
      as (c & -> & Hc).
    eexists. split; [reflexivity|]. split; intros i Hi; simpl; rewrite Hc.
    - rewrite contribs_sum by auto. unfold mat_vec.
      rewrite (fsum_ext K (sm_cols K A) (fun j => mat_entry K A i j * v j)
        (fun j => match lookup K (sm_items K A) (Z.of_nat j - Z.of_nat i) with
                       | None => 0 | Some d => dget K d (Nat.min i j) end * v j * sm_scale K A)).
      + rewrite fsum_scal_r. ring.
      + intros j Hj. unfold mat_entry. destruct (lookup K (sm_items K A) (Z.of_nat j - Z.of_nat i)); ring.
    - rewrite contribs_out by auto. ring.
  Qed.

  (** ** dictionaries *)
  Lemma dict_get_lookup k l : dict_get K k l = lookup K l k.
  Proof.
    induction l as [|[k' v] l IH]; simpl; auto.
    destruct (Z.eqb_spec k' k), (Z.eq_dec k' k); try congruence; auto.
  Qed.
  Lemma lookup_set k v l o : lookup K (dict_set K k v l) o = if Z.eq_dec k o then Some v else lookup K l o.
  Proof.
    induction l as [|[k' v'] l IH]; simpl.
    - destruct (Z.eq_dec k o); auto.
    - destruct (Z.eqb_spec k' k) as [->|Hne]; simpl.
      + destruct (Z.eq_dec k o); auto.
      + rewrite IH. destruct (Z.eq_dec k' o), (Z.eq_dec k o); congruence.
  Qed.
  Lemma set_keys k v l : map fst (dict_set K k v l)
    = if in_dec Z.eq_dec k (map fst l) then map fst l else map fst l ++ [k].
  Proof.
    induction l as [|[k' v'] l IH]; simpl; auto.
    destruct (Z.eqb_spec k' k) as [->|Hne]; simpl.
    - destruct (Z.eq_dec k k); [reflexivity | congruence].
    - rewrite IH. destruct (Z.eq_dec k' k); [congruence|].
      destruct (in_dec Z.eq_dec k (map fst l)); reflexivity.
  Qed.
  Lemma NoDup_snoc (k : Z) l : NoDup l -> ~ In k l -> NoDup (l ++ [k]).
  Proof.
    induction l as [|x l IH]; simpl; intros H Hk.
    - repeat constructor; auto.
    - inversion H; subst. constructor.
      + rewrite in_app_iff. simpl. intuition.
      + apply IH; auto.
  Qed.
  Lemma set_nodup k v l : NoDup (map fst l) -> NoDup (map fst (dict_set K k v l)).
  Proof.
    intros H. rewrite set_keys. destruct (in_dec Z.eq_dec k (map fst l)); auto.
    apply NoDup_snoc; auto.
  Qed.
  Lemma set_Forall (P : Z * dval -> Prop) k v l : P (k, v) -> Forall P l -> Forall P (dict_set K k v l).
  Proof.
    intros Hp. induction l as [|[k' v'] l IH]; simpl; intros H.
    - constructor; auto.
    - inversion H; subst. destruct (Z.eqb_spec k' k); constructor; auto.
  Qed.

  (** value of an optional diagonal *)
  Definition oget (d : option dval) (t : nat) : K := match d with None => 0 | Some d => dget K d t end.

  Lemma dget_bin op d e t : dget K (dbin K op d e) t = op (dget K d t) (dget K e t).
  Proof. destruct d, e; reflexivity. Qed.
  Lemma dget_neg d t : dget K (dneg K d) t = - dget K d t.
  Proof. destruct d; reflexivity. Qed.
  Lemma dget_scale d s t : dget K (dscale K d s) t = dget K d t * s.
  Proof. destruct d; reflexivity. Qed.

  Lemma lookup_In l k d : lookup K l k = Some d -> In (k, d) l.
  Proof.
    induction l as [|[k' v'] l IH]; simpl; [discriminate|].
    destruct (Z.eq_dec k' k) as [->|]; [injection 1 as ->; auto | auto].
  Qed.
  Lemma ok_bin N M k op d e : item_ok N M (k, d) -> item_ok N M (k, e) -> item_ok N M (k, dbin K op d e).
  Proof. intros [H1 H2] [_ H3]. split; auto. destruct d, e; simpl in *; auto. Qed.

  Lemma add_items_ok N M l f : NoDup (map fst l) -> NoDup (map fst f) ->
    Forall (item_ok N M) l -> Forall (item_ok N M) f ->
    NoDup (map fst (add_items K l f)) /\ Forall (item_ok N M) (add_items K l f) /\
    forall o t, oget (lookup K (add_items K l f) o) t = oget (lookup K f o) t + oget (lookup K l o) t.
  Proof.
    revert f. induction l as [|[k v] l IH]; intros f Hl Hf Ol Of.
    - unfold add_items. simpl. repeat split; auto. intros. ring.
    - inversion Hl as [|? ? Hnin Hl']; subst. inversion Ol as [|? ? Okv Ol']; subst.
      unfold add_items. simpl fold_left. rewrite dict_get_lookup.
      set (f' := match lookup K f k with
                 | Some w => dict_set K k (dbin K fadd w v) f
                 | None => dict_set K k v f end).
      assert (Hf' : NoDup (map fst f')) by (unfold f'; destruct (lookup K f k); apply set_nodup; auto).
      assert (Of' : Forall (item_ok N M) f').
      { unfold f'. destruct (lookup K f k) eqn:E; apply set_Forall; auto.
        apply ok_bin; auto. apply lookup_In in E. eapply Forall_forall in Of; eauto. }
      destruct (IH f' Hl' Hf' Ol' Of') as (A1 & A2 & A3). repeat split; auto.
      intros o t. rewrite A3. simpl. unfold f'.
      destruct (lookup K f k) as [w|] eqn:E; rewrite lookup_set; destruct (Z.eq_dec k o) as [<-|]; try reflexivity.
      + rewrite E. rewrite (lookup_not_in l k) by auto. simpl. rewrite dget_bin. ring.
      + rewrite E. rewrite (lookup_not_in l k) by auto. simpl. ring.
  Qed.

  Lemma sub_items_ok N M l f : NoDup (map fst l) -> NoDup (map fst f) ->
    Forall (item_ok N M) l -> Forall (item_ok N M) f ->
    NoDup (map fst (sub_items K l f)) /\ Forall (item_ok N M) (sub_items K l f) /\
    forall o t, oget (lookup K (sub_items K l f) o) t = oget (lookup K f o) t - oget (lookup K l o) t.
  Proof.
    revert f. induction l as [|[k v] l IH]; intros f Hl Hf Ol Of.
    - unfold sub_items. simpl. repeat split; auto. intros. ring.
    - inversion Hl as [|? ? Hnin Hl']; subst. inversion Ol as [|? ? Okv Ol']; subst.
      unfold sub_items. simpl fold_left. rewrite dict_get_lookup.
      set (f' := match lookup K f k with
                 | Some w => dict_set K k (dbin K fsub w v) f
                 | None => dict_set K k (dneg K v) f end).
      assert (Hf' : NoDup (map fst f')) by (unfold f'; destruct (lookup K f k); apply set_nodup; auto).
      assert (Of' : Forall (item_ok N M) f').
      { unfold f'. destruct (lookup K f k) eqn:E; apply set_Forall; auto.
        - apply ok_bin; auto. apply lookup_In in E. eapply Forall_forall in Of; eauto.
        - destruct Okv as [O1 O2]. split; auto. destruct v; simpl in *; auto. }
      destruct (IH f' Hl' Hf' Ol' Of') as (A1 & A2 & A3). repeat split; auto.
      intros o t. rewrite A3. simpl. unfold f'.
      destruct (lookup K f k) as [w|] eqn:E; rewrite lookup_set; destruct (Z.eq_dec k o) as [<-|]; try reflexivity.
      + rewrite E. rewrite (lookup_not_in l k) by auto. simpl. rewrite dget_bin. ring.
      + rewrite E. rewrite (lookup_not_in l k) by auto. simpl. rewrite dget_neg. ring.
  Qed.

  Lemma copy_items_ok N M l f : NoDup (map fst l) -> NoDup (map fst f) ->
    Forall (item_ok N M) l -> Forall (item_ok N M) f ->
    let r := fold_left (fun f kv => dict_set K (fst kv) (snd kv) f) l f in
    NoDup (map fst r) /\ Forall (item_ok N M) r /\
    forall o, lookup K r o = match lookup K l o with Some d => Some d | None => lookup K f o end.
  Proof.
    revert f. induction l as [|[k v] l IH]; intros f Hl Hf Ol Of; simpl.
    - repeat split; auto.
    - inversion Hl as [|? ? Hnin Hl']; subst. inversion Ol as [|? ? Okv Ol']; subst.
      destruct (IH (dict_set K k v f)) as (A1 & A2 & A3); auto.
      { apply set_nodup; auto. } { apply set_Forall; auto. }
      repeat split; auto. intros o. rewrite A3, lookup_set.
      destruct (Z.eq_dec k o) as [<-|]; auto. rewrite lookup_not_in; auto.
  Qed.

  Lemma mat_entry_oget (A : smat) i j :
    mat_entry K A i j = oget (lookup K (sm_items K A) (Z.of_nat j - Z.of_nat i)) (Nat.min i j) * sm_scale K A.
  Proof. unfold mat_entry. destruct (lookup K (sm_items K A) _); simpl; ring. Qed.

  (** ** scale *)
  Lemma lookup_map (g : dval -> dval) (l : list (Z * dval)) o :
    lookup K (map (fun kv => (fst kv, g (snd kv))) l) o = option_map g (lookup K l o).
  Proof.
    induction l as [|[k v] l IH]; simpl; auto. destruct (Z.eq_dec k o); auto.
  Qed.
  Lemma map_fst_map (g : dval -> dval) (l : list (Z * dval)) : map fst (map (fun kv => (fst kv, g (snd kv))) l) = map fst l.
  Proof. rewrite map_map. reflexivity. Qed.

  Section Tol.
    Variable near1 : K -> bool.
    Lemma incorporate_ok (A : smat) :
      wf K A -> (near1 (sm_scale K A) = true -> sm_scale K A = 1) ->
      let A' := incorporate_scale K near1 A in
      wf K A' /\ sm_scale K A' = 1 /\ sm_rows K A' = sm_rows K A /\ sm_cols K A' = sm_cols K A /\
      forall i j, mat_entry K A' i j = mat_entry K A i j.
    Proof.
      intros Hw H1. unfold incorporate_scale.
      destruct (near1 (sm_scale K A)) eqn:E; simpl; [repeat split; auto; apply Hw|].
      destruct Hw as [Hn Hf]. repeat split; simpl; auto.
      - rewrite (map_fst_map (fun d => dscale K d (sm_scale K A))). auto.
      - apply Forall_map. eapply Forall_impl; [|apply Hf]. intros [k v] [Q1 Q2]. split; auto.
        simpl in *. destruct v; simpl in *; auto.
      - intros i j. rewrite !mat_entry_oget. simpl. rewrite (lookup_map (fun d => dscale K d (sm_scale K A))).
        destruct (lookup K (sm_items K A) _); simpl; [rewrite dget_scale|]; ring.
    Qed.
  End Tol.
End P.
