(** JacobiProofs5.v -- ShiftedMatrix. *)
From Coq Require Import Lia ZArith List Arith.
From Verif Require Import Base Fld SparseModel SparseSpec JacobiModel.
Import ListNotations.

Lemma pyidx_len n j L hi (W : nat) : (0 <= j)%Z -> hi = (L + j)%Z -> W = Z.to_nat L ->
  (L + j <= Z.of_nat n)%Z -> (L + j < 0 -> L + Z.of_nat n <= 0)%Z ->
  (pyidx n hi - pyidx n j)%nat = W.
Proof.
  intros Hj -> -> H1 H2. unfold pyidx. destruct (Z.ltb_spec j 0); [lia|]. destruct (Z.ltb_spec (L + j) 0) as [H3|H3].
  - specialize (H2 H3). lia.
  - lia.
Qed.
(** everything about one diagonal, over the integers *)
Lemma shift_arith (R0 C0 M N r s key : Z) : (0 <= M)%Z -> (0 <= N)%Z -> (0 <= r)%Z -> (0 <= s)%Z ->
  (M + r <= R0)%Z -> (N + s <= C0)%Z -> (R0 <= M + Z.max r s)%Z -> (C0 <= N + Z.max r s)%Z -> (- R0 < key < C0)%Z ->
  let nk := (key + r - s)%Z in
  let j := Z.max (r + Z.min key 0) (s - Z.max key 0) in
  let D := Z.min (R0 + Z.min key 0) (C0 - Z.max key 0) in
  let L := Z.min (M + Z.min nk 0) (N - Z.max nk 0) in
  (0 <= j /\ 0 <= D /\ L + j <= D /\ (L + j < 0 -> L + D <= 0))%Z.
Proof.
  intros H1 H2 H3 H4 H5 H6 H7 H8 H9. cbv zeta.
  destruct (Z.min_spec key 0) as [[Hk ->]|[Hk ->]];
  [rewrite (Z.max_r key 0) by lia | rewrite (Z.max_l key 0) by lia];
  (destruct (Z.min_spec (key + r - s) 0) as [[Hn ->]|[Hn ->]];
   [rewrite (Z.max_r (key + r - s) 0) by lia; rewrite Z.max_r by lia | rewrite (Z.max_l (key + r - s) 0) by lia; rewrite Z.max_l by lia]);
  (destruct (Z.max_spec r s) as [[Hm E]|[Hm E]]; rewrite E in H7, H8; clear E);
  (match goal with |- context [Z.min (R0 + ?u) (C0 - ?v)] => destruct (Z.min_spec (R0 + u) (C0 - v)) as [[Hd ->]|[Hd ->]] end);
  (match goal with |- context [Z.min (M + ?u) (N - ?v)] => destruct (Z.min_spec (M + u) (N - v)) as [[Hl ->]|[Hl ->]] end);
  repeat split; intros; lia.
Qed.

Section Shift.
Variable K : Fld.
Add Ring KR : (fringlaws K).
Variables (R0 C0 M N r s : nat).
Hypothesis HM : (M + r <= R0 <= M + Nat.max r s)%nat.
Hypothesis HN : (N + s <= C0 <= N + Nat.max r s)%nat.
Notation zM := (Z.of_nat M). Notation zN := (Z.of_nat N). Notation zr := (Z.of_nat r). Notation zs := (Z.of_nat s).

Definition off (key : Z) : nat := Z.to_nat (Z.max (zr + Z.min key 0) (zs - Z.max key 0)).

Lemma shift_item_spec key n f : (- Z.of_nat R0 < key < Z.of_nat C0)%Z -> n = diag_len R0 C0 key ->
  exists g, shift_item K zM zN zr zs (key, Arr K n f) =
    Some (if (diag_len M N (key + zr - zs) =? 0)%nat then [] else [((key + zr - zs)%Z, Arr K (diag_len M N (key + zr - zs)) g)])
    /\ forall t, (t < diag_len M N (key + zr - zs))%nat -> g t = f (off key + t)%nat.
Proof.
  intros Hk Hn. cbv beta delta [shift_item] iota zeta.
  set (j := Z.max (zr + Z.min key 0) (zs - Z.max key 0)).
  set (hi := if (0 <=? key + zr - zs)%Z then (Z.min (zN - (key + zr - zs)) zM + j)%Z else (Z.min (zM + (key + zr - zs)) zN + j)%Z).
  assert (Z.of_nat R0 <= zM + Z.max zr zs)%Z as HR1 by (rewrite <- Nat2Z.inj_max; lia).
  assert (Z.of_nat C0 <= zN + Z.max zr zs)%Z as HC1 by (rewrite <- Nat2Z.inj_max; lia).
  destruct (shift_arith (Z.of_nat R0) (Z.of_nat C0) zM zN zr zs key) as (Hj & HD & HL & HL2); try lia.
  fold j in Hj, HL, HL2. clear HR1 HC1.
  assert (hi = Z.min (zM + Z.min (key + zr - zs) 0) (zN - Z.max (key + zr - zs) 0) + j)%Z as Hhi.
  { unfold hi. destruct (Z.leb_spec 0 (key + zr - zs)); lia. }
  assert (Hlen : (pyidx n hi - pyidx n j)%nat = diag_len M N (key + zr - zs)).
  { eapply pyidx_len; [exact Hj|exact Hhi|reflexivity| |]; rewrite Hn; unfold diag_len; rewrite Z2Nat.id by exact HD; [exact HL|exact HL2]. }
  rewrite Hlen.
  exists (fun t => f (pyidx n j + t)%nat). split; [reflexivity|].
  intros t Ht. f_equal. f_equal. unfold off. fold j. unfold pyidx. destruct (Z.ltb_spec j 0); [lia|].
  rewrite Z.min_l; [reflexivity|]. rewrite Hn. unfold diag_len in *. rewrite Z2Nat.id by exact HD. clear Hhi Hlen hi. 
  set (L := Z.min (zM + Z.min (key + zr - zs) 0) (zN - Z.max (key + zr - zs) 0)) in *. clearbody L j. 
  set (DD := Z.min _ _) in HL |- *. clearbody DD. clear - Ht HL Hj. lia.
Qed.

Definition item_ok (kv : Z * dval K) : Prop :=
  (- Z.of_nat R0 < fst kv < Z.of_nat C0)%Z /\ exists f, snd kv = Arr K (diag_len R0 C0 (fst kv)) f.

Lemma lookup_not_in l o : ~ In o (map fst l) -> lookup K l o = None.
Proof.
  induction l as [|[k v] l IH]; simpl; intros H; [reflexivity|]. destruct (Z.eq_dec k o); [exfalso; apply H; left; auto|]. apply IH. tauto.
Qed.

Lemma shift_items_spec l : NoDup (map fst l) -> Forall item_ok l ->
  exists l', shift_items K zM zN zr zs l = Some l' /\
    NoDup (map fst l') /\
    (forall o, In o (map fst l') -> In (o - zr + zs)%Z (map fst l) /\ diag_len M N o <> 0%nat) /\
    Forall (fun kv => exists g, snd kv = Arr K (diag_len M N (fst kv)) g) l' /\
    (forall o t, (t < diag_len M N o)%nat ->
       match lookup K l' o with Some d => dget K d t | None => f0 end =
       match lookup K l (o - zr + zs) with Some d => dget K d (off (o - zr + zs) + t) | None => f0 end).
Proof.
  induction l as [|[key val] l IH]; intros Hnd Hok.
  - exists []. repeat split; auto; try constructor; intros; contradiction.
  - inversion Hnd as [|? ? Hni Hnd']; subst. inversion Hok as [|? ? [Hr [f Hf]] Hok']; subst. simpl in Hr, Hf. subst val.
    destruct (IH Hnd' Hok') as (l' & E & ND & IN & FA & LK).
    destruct (shift_item_spec key (diag_len R0 C0 key) f Hr eq_refl) as (g & Eg & Hg).
    cbn [shift_items]. rewrite Eg, E. eexists. split; [reflexivity|].
    simpl in Hni.
    destruct (Nat.eqb_spec (diag_len M N (key + zr - zs)) 0) as [E0|N0].
    + cbn [app]. repeat split; auto.
      * intros. right. apply IN. auto.
      * apply IN; auto.
      * intros o t Ht. rewrite LK by auto. simpl. destruct (Z.eq_dec key (o - zr + zs)) as [Ek|]; [|reflexivity].
        subst key. replace (o - zr + zs + zr - zs)%Z with o in E0 by lia. lia.
    + cbn [app map fst]. repeat split.
      * constructor; auto. intros Hin. apply IN in Hin. destruct Hin as [Hin _]. replace (key + zr - zs - zr + zs)%Z with key in Hin by lia. contradiction.
      * destruct H as [<-|H]; [left; lia|right; apply IN; auto].
      * destruct H as [<-|H]; [auto|apply IN; auto].
      * constructor; auto. simpl. eauto.
      * intros o t Ht. cbn [lookup]. destruct (Z.eq_dec (key + zr - zs) o) as [<-|Hne].
        -- destruct (Z.eq_dec key (key + zr - zs - zr + zs)) as [_|]; [|lia].
           simpl. rewrite Hg by auto. f_equal. f_equal. f_equal. lia.
        -- destruct (Z.eq_dec key (o - zr + zs)); [lia|]. apply LK. auto.
Qed.

Theorem shifted_correct A : sm_rows K A = R0 -> sm_cols K A = C0 -> wf K A -> sm_scale K A = f1 ->
  Forall (fun kv => exists n f, snd kv = Arr K n f) (sm_items K A) ->
  exists B, shifted K A M N r s = Some B /\ wf K B /\ sm_rows K B = M /\ sm_cols K B = N /\
    forall m n, (m < M)%nat -> (n < N)%nat -> mat_entry K B m n = mat_entry K A (m + r) (n + s).
Proof.
  intros HR HC [Hnd Hwf] Hsc Harr. unfold shifted.
  assert (Forall item_ok (sm_items K A)) as Hok.
  { rewrite Forall_forall in *. intros kv Hin. specialize (Hwf kv Hin). specialize (Harr kv Hin). destruct Harr as (n & f & Ef).
    destruct Hwf as [H1 H2]. rewrite Ef in H2. rewrite HR, HC in *. subst n. split; [auto|eauto]. }
  destruct (shift_items_spec (sm_items K A) Hnd Hok) as (l' & E & ND & IN & FA & LK). rewrite E.
  eexists. split; [reflexivity|]. split; [|split; [reflexivity|split; [reflexivity|]]].
  - split; [exact ND|]. cbn [sm_items sm_rows sm_cols]. rewrite Forall_forall in *. intros kv Hin.
    destruct (FA kv Hin) as [g Eg]. rewrite Eg. split; [|reflexivity].
    destruct (IN (fst kv)) as [_ Hd]; [apply in_map; auto|]. unfold diag_len in Hd. lia.
  - intros m n Hm Hn. unfold mat_entry. cbn [sm_items sm_scale].
    specialize (LK (Z.of_nat n - Z.of_nat m)%Z (Nat.min m n)).
    replace (Z.of_nat (n + s) - Z.of_nat (m + r))%Z with (Z.of_nat n - Z.of_nat m - zr + zs)%Z by lia.
    rewrite Hsc.
    destruct (lookup K l' (Z.of_nat n - Z.of_nat m)) as [d|], (lookup K (sm_items K A) _) as [e|].
    + rewrite LK by (unfold diag_len; lia). f_equal. f_equal. unfold off. lia.
    + rewrite LK by (unfold diag_len; lia). ring.
    + transitivity (fmul (f0 : K) f1); [ring|]. f_equal. rewrite LK by (unfold diag_len; lia). f_equal. unfold off. lia.
    + reflexivity.
Qed.
End Shift.
