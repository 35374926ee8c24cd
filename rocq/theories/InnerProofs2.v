(** InnerProofs2.v -- one item of the split, one pair of terms, the whole form. *)
From Coq Require Import Reals ZArith List Bool Arith Lia Lra String.
From Verif Require Import Base FormsModel FormsSpec FormsProofs FormsProofs2 InnerModel InnerSpec InnerProofs.
Import ListNotations.
Local Open Scope R_scope.
Local Notation length := List.length.

Section Form.
Context {S : Sym} (L : SymLaws S).
Variable phi : space -> nat -> nat -> R -> R.
Variable quad : space -> rule.
Variable mval : S -> R -> R.
Variable split : S -> option (list (dict S)).
Variable ip : space -> nat -> space -> nat -> S -> option mat.
Variable bcspace : space -> option space.
Variable co : coords S.
Variable gij : nat -> nat -> S.
Variable dim : nat.
Hypothesis Hip : ip_law phi quad mval ip.
Hypothesis Hbc : bc_law bcspace ip.
Hypothesis Hsplit : split_law L mval dim axis_names split.
Hypothesis Hdim : (dim <= 5)%nat.

Notation product1 := (product1 phi quad mval).

(** the matrices of one axis, for a column of the trial basis [ts] or of its boundary basis *)
Definition ax_ok (tt : space) (a : nat) (ts : space) (b : nat) (ms : S) (x : mat * (option mat * bool)) : Prop :=
  m_trial (fst x) = ts /\
  (forall k l, m_ent (fst x) k l = product1 tt a ts b ms k l) /\
  match bcspace ts with
  | None => snd x = (Some (fst x), false)
  | Some tsc => (exists B, snd x = (Some B, true) /\ m_trial B = tsc /\ forall k l, m_ent B k l = product1 tt a tsc b ms k l)
                \/ (snd x = (None, false) /\ forall k l, product1 tt a tsc b ms k l = 0)
  end.

Lemma axis_mats_ok tt a ts b ms x : axis_mats ip bcspace tt a ts b ms = Some x -> ax_ok tt a ts b ms x.
Proof.
  unfold axis_mats. pose proof (Hip tt a ts b ms) as H1.
  destruct (ip tt a ts b ms) as [AA|]; [|discriminate]. intros E. injection E as <-.
  destruct H1 as [H1 H2]. split; [exact H1|]. split; [exact H2|]. cbn [snd].
  destruct (bcspace ts) as [tsc|]; [|reflexivity].
  pose proof (Hip tt a tsc b ms) as H3.
  destruct (ip tt a tsc b ms) as [BB|]; [left|right].
  - exists BB. destruct H3. auto.
  - auto.
Qed.

(** no diagonals: zero for every column *)
Lemma axis_mats_none tt a ts b ms s : axis_mats ip bcspace tt a ts b ms = None ->
  (s = ts \/ bcspace ts = Some s) -> forall k l, product1 tt a s b ms k l = 0.
Proof.
  unfold axis_mats. pose proof (Hip tt a ts b ms) as H1. intros E Hs.
  destruct (ip tt a ts b ms) as [AA|] eqn:E1; [discriminate|].
  destruct Hs as [->|Hs]; [exact H1|].
  destruct (Hbc _ _ Hs) as [_ H2]. specialize (H2 _ _ _ _ E1).
  pose proof (Hip tt a s b ms) as H3. now rewrite H2 in H3.
Qed.

(** ** All axes *)
Section Item.
Variables (tt ts : nat -> space) (dv : dict S) (k : nat -> nat) (l : nat -> space * nat).
Hypothesis Hcol : forall i, (i < dim)%nat -> fst (l i) = ts i \/ bcspace (ts i) = Some (fst (l i)).

Definition ms (i : nat) : S := lookup dv (nth i axis_names ""%string).
(** the wanted value on axis i *)
Definition val (b0 b1 : nat -> nat) (i : nat) : R := product1 (tt i) (b0 i) (fst (l i)) (b1 i) (ms i) (k i) (snd (l i)).

Definition ent1 (i : nat) (m : mat) : R := if Nat.eqb (m_trial m) (fst (l i)) then m_ent m (k i) (snd (l i)) else 0.

Definition interior (i : nat) : bool := Nat.eqb (ts i) (fst (l i)).

Lemma interior_false i : (i < dim)%nat -> interior i = false -> bcspace (ts i) = Some (fst (l i)).
Proof.
  unfold interior. intros Hi H. apply Nat.eqb_neq in H. destruct (Hcol i Hi) as [E|E]; [congruence|exact E].
Qed.

Lemma ent1_m b0 b1 i x : ax_ok (tt i) (b0 i) (ts i) (b1 i) (ms i) x ->
  ent1 i (fst x) = if interior i then val b0 b1 i else 0.
Proof.
  intros [E [H _]]. unfold ent1, interior. rewrite E.
  destruct (Nat.eqb_spec (ts i) (fst (l i))) as [E2|N]; [|reflexivity].
  unfold val. rewrite H, E2. reflexivity.
Qed.

(** a boundary axis: the entry of DM *)
Lemma ent1_bc b0 b1 i x tsc : (i < dim)%nat -> ax_ok (tt i) (b0 i) (ts i) (b1 i) (ms i) x -> bcspace (ts i) = Some tsc ->
  match fst (snd x) with
  | Some B => snd (snd x) = true /\ ent1 i B = if interior i then 0 else val b0 b1 i
  | None => snd (snd x) = false /\ (interior i = false -> val b0 b1 i = 0)
  end.
Proof.
  intros Hi [_ [_ H]] E. rewrite E in H. destruct (Hbc _ _ E) as [Hne _].
  destruct H as [[B [-> [Et He]]]|[-> H0]]; cbn [fst snd].
  - split; [reflexivity|]. unfold ent1, interior. rewrite Et.
    destruct (Nat.eqb_spec (ts i) (fst (l i))) as [E2|N].
    + destruct (Nat.eqb_spec tsc (fst (l i))); [congruence|reflexivity].
    + destruct (Hcol i Hi) as [E3|E3]; [congruence|]. rewrite E in E3. injection E3 as ->.
      rewrite Nat.eqb_refl. unfold val. now rewrite He.
  - split; [reflexivity|]. intros Hi2. unfold val.
    apply interior_false in Hi2; [|exact Hi]. rewrite E in Hi2. injection Hi2 as <-. apply H0.
Qed.

(** an axis without boundary basis *)
Lemma ent1_nobc b0 b1 i x : (i < dim)%nat -> ax_ok (tt i) (b0 i) (ts i) (b1 i) (ms i) x -> bcspace (ts i) = None ->
  interior i = true /\ snd x = (Some (fst x), false).
Proof.
  intros Hi [_ [_ H]] E. rewrite E in H. split; [|exact H].
  unfold interior. apply Nat.eqb_eq. destruct (Hcol i Hi) as [E2|E2]; congruence.
Qed.

Lemma all_axes_spec : forall b0 b1 i r,
  length b0 = length b1 -> (i + length b0 <= 5)%nat ->
  all_axes ip bcspace i tt ts b0 b1 dv = Some r ->
  match r with
  | Some xs => length xs = length b0 /\
      forall j, (j < length b0)%nat -> forall d, 
        ax_ok (tt (i + j)) (nth j b0 0%nat) (ts (i + j)) (nth j b1 0%nat) (ms (i + j)) (nth j xs d)
  | None => exists j, (j < length b0)%nat /\
        axis_mats ip bcspace (tt (i + j)) (nth j b0 0%nat) (ts (i + j)) (nth j b1 0%nat) (ms (i + j)) = None
  end.
Proof.
  induction b0 as [|a b0 IH]; intros [|b b1] i r Hl Hi E; try discriminate.
  - cbn in E. injection E as <-. split; [reflexivity|]. cbn. lia.
  - cbn [all_axes] in E. cbn [length] in *.
    destruct (nth_error axis_names i) as [name|] eqn:En; [|discriminate].
    assert (Ems : ms i = lookup dv name).
    { unfold ms. now rewrite (nth_error_nth _ _ _ En). }
    destruct (all_axes ip bcspace (i + 1) tt ts b0 b1 dv) as [rest|] eqn:Er; [|discriminate].
    injection E as <-.
    specialize (IH b1 (i + 1)%nat rest ltac:(lia) ltac:(lia) Er).
    destruct (axis_mats ip bcspace (tt i) a (ts i) b (lookup dv name)) as [m|] eqn:Em.
    + destruct rest as [xs|].
      * destruct IH as [Hlen IH]. split; [cbn; lia|].
        intros [|j] Hj d.
        -- rewrite Nat.add_0_r. cbn [nth]. rewrite Ems. now apply axis_mats_ok.
        -- cbn [nth]. replace (i + Datatypes.S j)%nat with (i + 1 + j)%nat by lia. apply IH. lia.
      * destruct IH as [j [Hj IH]]. exists (Datatypes.S j). split; [lia|].
        cbn [nth]. replace (i + Datatypes.S j)%nat with (i + 1 + j)%nat by lia. exact IH.
    + exists 0%nat. split; [lia|]. rewrite Nat.add_0_r. cbn [nth]. now rewrite Ems.
Qed.

(** products over the axes *)
Lemma prod_entry_ent msl : forall i, prod_entry i msl k l = rprod i (length msl) (fun j => ent1 j (nth (j - i) msl (mkMat 0%nat (fun _ _ => 0)))).
Proof.
  induction msl as [|m msl IH]; intros i; [reflexivity|].
  cbn [prod_entry length rprod]. rewrite Nat.sub_diag. cbn [nth]. f_equal.
  rewrite IH. apply rprod_ext. intros j Hj. f_equal.
  replace (j - i)%nat with (Datatypes.S (j - (i + 1))) by lia. reflexivity.
Qed.

Variables (p q : nat).
Definition summand (m : tpm) : R :=
  if (Nat.eqb (p_row m) p && Nat.eqb (p_col m) q && Nat.eqb (length (p_mats m)) dim)%bool
  then p_scale m * prod_entry 0 (p_mats m) k l else 0.

Lemma summand_ok sc msl : length msl = dim -> summand (mkTpm sc p q msl) = sc * prod_entry 0 msl k l.
Proof. intros H. unfold summand. cbn [p_row p_col p_mats p_scale]. now rewrite H, !Nat.eqb_refl. Qed.

Definition mdef : mat := mkMat 0%nat (fun _ _ => 0).

Definition ders (b : list nat) (j : nat) : nat := nth j b 0%nat.
Section WithAxes.
Variables (b0 b1 : list nat) (xs : list (mat * (option mat * bool))).
Hypothesis Hlen : length xs = dim.
Hypothesis Hb0 : length b0 = dim.
Definition xd : mat * (option mat * bool) := (mdef, (None, false)).
Hypothesis Hax : forall j, (j < dim)%nat -> 
   ax_ok (tt j) (nth j b0 0%nat) (ts j) (nth j b1 0%nat) (ms j) (nth j xs xd).
Notation v := (val (ders b0) (ders b1)).

Lemma prod_m : prod_entry 0 (map fst xs) k l = rprod 0 dim (fun j => if interior j then v j else 0).
Proof.
  rewrite prod_entry_ent, map_length, Hlen. apply rprod_ext. intros j Hj.
  rewrite Nat.sub_0_r.
  rewrite (nth_indep _ _ (fst xd)) by (rewrite map_length; lia). rewrite map_nth.
  apply (ent1_m (ders b0) (ders b1)). apply Hax. lia.
Qed.

Lemma dm_nth d : dm_list xs = Some d -> length d = dim /\
  forall j, (j < dim)%nat -> fst (snd (nth j xs xd)) = Some (nth j d mdef).
Proof.
  clear Hb0 Hax. unfold dm_list. intros H. apply opt_all_some in H.
  assert (El : length d = dim).
  { rewrite <- Hlen. rewrite <- (map_length Some d), <- H. now rewrite map_length. }
  split; [exact El|]. intros j Hj.
  assert (E : nth j (map (fun x => fst (snd x)) xs) (fst (snd xd)) = nth j (map Some d) (Some mdef)).
  { rewrite H. apply nth_indep. rewrite map_length. lia. }
  rewrite (map_nth (fun x => fst (snd x))) in E. rewrite map_nth in E. exact E.
Qed.

(** no boundary matrix was found *)
Lemma sum_nobc : existsb (fun x => snd (snd x)) xs = false ->
  prod_entry 0 (map fst xs) k l = rprod 0 dim v.
Proof.
  intros H. rewrite prod_m. apply rprod_ext. intros j Hj.
  assert (Hf : snd (snd (nth j xs xd)) = false).
  { destruct (snd (snd (nth j xs xd))) eqn:E; [|reflexivity].
    rewrite <- H. symmetry. apply existsb_exists. exists (nth j xs xd). split; [apply nth_In; lia|exact E]. }
  assert (Hjd : (j < dim)%nat) by lia. specialize (Hax j Hjd).
  destruct (bcspace (ts j)) as [tsc|] eqn:Eb.
  - pose proof (ent1_bc (ders b0) (ders b1) _ _ _ Hjd Hax Eb) as H2.
    destruct (fst (snd (nth j xs xd))) as [B|].
    + destruct H2. congruence.
    + destruct H2 as [_ H2]. destruct (interior j); [reflexivity|]. symmetry. now apply H2.
  - destruct (ent1_nobc (ders b0) (ders b1) _ _ Hjd Hax Eb) as [-> _]. reflexivity.
Qed.

(** one boundary axis h *)
Lemma sum_onebc h tsc d : (h < dim)%nat -> bcspace (ts h) = Some tsc ->
  (forall j, (j < dim)%nat -> j <> h -> bcspace (ts j) = None) ->
  dm_list xs = Some d ->
  prod_entry 0 (map fst xs) k l + prod_entry 0 d k l = rprod 0 dim v.
Proof.
  intros Hh Eb Ho Hd. destruct (dm_nth d Hd) as [Hdl Hdn].
  assert (Hdm : prod_entry 0 d k l = rprod 0 dim (fun j => if Nat.eqb j h then (if interior h then 0 else v h) else v j)).
  { rewrite prod_entry_ent, Hdl. apply rprod_ext. intros j Hj. rewrite Nat.sub_0_r.
    fold mdef. assert (Hjd : (j < dim)%nat) by lia. specialize (Hdn j Hjd). pose proof (Hax j ltac:(lia)) as Hj2.
    destruct (Nat.eqb_spec j h) as [->|N].
    - pose proof (ent1_bc (ders b0) (ders b1) _ _ _ Hh Hj2 Eb) as H2. rewrite Hdn in H2. apply H2.
    - destruct (ent1_nobc (ders b0) (ders b1) _ _ Hjd Hj2 (Ho j Hjd N)) as [Hi Es].
      rewrite Es in Hdn. cbn [fst] in Hdn. injection Hdn as Hdn. rewrite <- Hdn.
      rewrite (ent1_m (ders b0) (ders b1) _ _ Hj2), Hi. reflexivity. }
  rewrite prod_m, Hdm.
  assert (Hint : forall j, (j < dim)%nat -> j <> h -> interior j = true).
  { intros j Hj N. now destruct (ent1_nobc (ders b0) (ders b1) _ _ Hj (Hax j Hj) (Ho j Hj N)). }
  destruct (interior h) eqn:Eh.
  - rewrite (rprod_zero dim 0 (fun j => if Nat.eqb j h then 0 else v j) h); [|lia|now rewrite Nat.eqb_refl].
    rewrite Rplus_0_r. apply rprod_ext. intros j Hj.
    destruct (Nat.eq_dec j h) as [->|N]; [now rewrite Eh|]. rewrite Hint; [reflexivity|lia|exact N].
  - rewrite (rprod_zero dim 0 (fun j => if interior j then v j else 0) h); [|lia|now rewrite Eh].
    rewrite Rplus_0_l. apply rprod_ext. intros j Hj.
    destruct (Nat.eqb_spec j h) as [->|N]; reflexivity.
Qed.
End WithAxes.

(** the number of boundary axes *)
Lemma count_zero n : count_bc bcspace ts n = 0%nat -> forall j, (j < n)%nat -> bcspace (ts j) = None.
Proof.
  unfold count_bc. intros H j Hj. apply length_zero_iff_nil in H.
  destruct (bcspace (ts j)) as [s|] eqn:E; [|reflexivity]. exfalso.
  assert (Hin : In j []); [|destruct Hin]. rewrite <- H. apply filter_In. split; [apply in_seq; lia|now rewrite E].
Qed.
Lemma count_one n : count_bc bcspace ts n = 1%nat -> exists h tsc, (h < n)%nat /\ bcspace (ts h) = Some tsc /\
  forall j, (j < n)%nat -> j <> h -> bcspace (ts j) = None.
Proof.
  unfold count_bc. intros H.
  destruct (filter _ (seq 0 n)) as [|h [|h2 r]] eqn:Ef; try discriminate.
  assert (Hh : In h (filter (fun i => match bcspace (ts i) with Some _ => true | None => false end) (seq 0 n)))
    by (rewrite Ef; now left).
  apply filter_In in Hh. destruct Hh as [Hs Hb]. apply in_seq in Hs.
  destruct (bcspace (ts h)) as [tsc|] eqn:Eb; [|discriminate].
  exists h, tsc. split; [lia|]. split; [exact Eb|]. intros j Hj N.
  destruct (bcspace (ts j)) as [s|] eqn:E; [|reflexivity]. exfalso.
  assert (Hin : In j [h]).
  { rewrite <- Ef. apply filter_In. split; [apply in_seq; lia|now rewrite E]. }
  destruct Hin as [->|[]]. now apply N.
Qed.

Lemma item_sum b0 b1 A : length b0 = dim -> length b1 = dim ->
  ((count_bc bcspace ts dim <= 1)%nat \/ dim = 2%nat) ->
  item_mats ip bcspace p q tt ts b0 b1 dv = Some A ->
  lsum A summand = d_coeff dv * rprod 0 dim (val (ders b0) (ders b1)).
Proof.
  intros H0 H1 Hcount. unfold item_mats.
  destruct (all_axes ip bcspace 0 tt ts b0 b1 dv) as [r|] eqn:Er; [|discriminate].
  pose proof (all_axes_spec b0 b1 0 r ltac:(congruence) ltac:(lia) Er) as Hr.
  destruct r as [xs|].
  2:{ intros E. injection E as <-. destruct Hr as [j [Hj Hn]]. rewrite Nat.add_0_l in Hn. rewrite lsum_nil.
      rewrite (rprod_zero dim 0 _ j); [ring|lia|].
      unfold val. eapply axis_mats_none; [exact Hn|]. apply Hcol. lia. }
  destruct Hr as [Hlen Hax]. rewrite H0 in Hlen, Hax.
  assert (Hax' : forall j, (j < dim)%nat -> ax_ok (tt j) (nth j b0 0%nat) (ts j) (nth j b1 0%nat) (ms j) (nth j xs xd))
    by (intros j Hj; apply (Hax j Hj xd)).
  destruct (Req_EM_T (d_coeff dv) 0) as [E0|_].
  { intros E. injection E as <-. rewrite E0, lsum_nil. ring. }
  destruct (bc_mats bcspace (d_coeff dv) p q ts xs) as [bcs|] eqn:Eb; [|discriminate].
  intros E. injection E as <-. rewrite lsum_cons, summand_ok by (rewrite map_length; exact Hlen).
  enough (Hb : exists s, lsum bcs summand = d_coeff dv * s /\
     prod_entry 0 (map fst xs) k l + s = rprod 0 dim (val (ders b0) (ders b1))).
  { destruct Hb as [s [-> Hb]]. rewrite <- Hb. ring. }
  unfold bc_mats in Eb. rewrite Hlen in Eb.
  destruct (existsb (fun x => snd (snd x)) xs) eqn:Ex.
  2:{ injection Eb as <-. exists 0. split; [rewrite lsum_nil; ring|].
      rewrite Rplus_0_r. now apply sum_nobc. }
  assert (Hone : forall d, count_bc bcspace ts dim = 1%nat -> dm_list xs = Some d ->
     lsum [mkTpm (d_coeff dv) p q d] summand = d_coeff dv * prod_entry 0 d k l /\
     prod_entry 0 (map fst xs) k l + prod_entry 0 d k l = rprod 0 dim (val (ders b0) (ders b1))).
  { intros d Hc Hd. destruct (dm_nth xs Hlen d Hd) as [Hdl _].
    rewrite lsum_cons, lsum_nil, summand_ok by exact Hdl. split; [ring|].
    destruct (count_one dim Hc) as [h [tsc [Hh [Eh Ho]]]]. eapply sum_onebc; eassumption. }
  assert (Hpos : count_bc bcspace ts dim <> 0%nat).
  { intros Hz. apply existsb_exists in Ex. destruct Ex as [x [Hin Hx]].
    destruct (In_nth _ _ xd Hin) as [j [Hj Ej]]. rewrite Hlen in Hj.
    destruct (ent1_nobc (ders b0) (ders b1) _ _ Hj (Hax' j Hj) (count_zero dim Hz j Hj)) as [_ Es].
    rewrite Ej in Es. rewrite Es in Hx. discriminate. }
  destruct (Nat.eqb_spec dim 1) as [D1|D1].
  { destruct (dm_list xs) as [d|] eqn:Ed; [|discriminate]. injection Eb as <-.
    exists (prod_entry 0 d k l). apply Hone; [|reflexivity].
    assert (count_bc bcspace ts dim <= 1)%nat; [|lia].
    rewrite D1. unfold count_bc. cbn. destruct (bcspace (ts 0%nat)); cbn; lia. }
  destruct (count_bc bcspace ts dim) as [|[|[|c]]] eqn:Ec.
  - congruence.
  - destruct (dm_list xs) as [d|] eqn:Ed; [|discriminate]. injection Eb as <-.
    exists (prod_entry 0 d k l). apply Hone; reflexivity.
  - destruct Hcount as [Hc|D2]; [lia|].
    assert (E2 : bcspace (ts 0%nat) <> None /\ bcspace (ts 1%nat) <> None).
    { rewrite D2 in Ec. unfold count_bc in Ec. cbn in Ec.
      destruct (bcspace (ts 0%nat)), (bcspace (ts 1%nat)); cbn in Ec; try lia. split; discriminate. }
    destruct E2 as [N0 N1].
    destruct (bcspace (ts 0%nat)) as [s0|] eqn:Es0; [clear N0|congruence].
    destruct (bcspace (ts 1%nat)) as [s1|] eqn:Es1; [clear N1|congruence].
    destruct xs as [|x0 [|x1 [|x2 r]]]; cbn [length] in Hlen; try lia.
    pose proof (Hax' 0%nat ltac:(lia)) as A0. pose proof (Hax' 1%nat ltac:(lia)) as A1.
    cbn [nth] in A0, A1.
    pose proof (ent1_bc (ders b0) (ders b1) 0 x0 s0 ltac:(lia) A0 Es0) as B0.
    pose proof (ent1_bc (ders b0) (ders b1) 1 x1 s1 ltac:(lia) A1 Es1) as B1.
    pose proof (ent1_m (ders b0) (ders b1) 0 x0 A0) as M0.
    pose proof (ent1_m (ders b0) (ders b1) 1 x1 A1) as M1.
    destruct x0 as [m0 [d0 f0]], x1 as [m1 [d1 f1]]. cbn [fst snd] in *.
    rewrite D2. cbn [rprod map fst prod_entry Nat.add].
    fold (ent1 0 m0). fold (ent1 1 m1). rewrite M0, M1.
    set (v0 := val _ _ 0) in *. set (v1 := val _ _ 1) in *.
    injection Eb as <-.
    assert (Hs2 : forall a b, summand (mkTpm (d_coeff dv) p q [a; b]) = d_coeff dv * (ent1 0 a * (ent1 1 b * 1))).
    { intros a b. rewrite summand_ok by (cbn; lia). reflexivity. }
    unfold dm_list. cbn [map fst snd].
    destruct d0 as [d0|], d1 as [d1|]; cbn [opt_all obind app]; rewrite ?lsum_cons, ?lsum_nil, ?Hs2;
      destruct B0 as [F0 B0], B1 as [F1 B1]; rewrite ?M0, ?M1.
    + rewrite B0, B1. eexists. split; [rewrite Rplus_0_r, <- !Rmult_plus_distr_l; reflexivity|].
      destruct (interior 0), (interior 1); ring.
    + rewrite B0. eexists. split; [rewrite Rplus_0_r; reflexivity|].
      destruct (interior 0), (interior 1) eqn:I1; try ring; rewrite B1 by reflexivity; ring.
    + rewrite B1. eexists. split; [rewrite Rplus_0_r; reflexivity|].
      destruct (interior 0) eqn:I0, (interior 1); try ring; rewrite B0 by reflexivity; ring.
    + exists 0. split; [ring|].
      destruct (interior 0) eqn:I0, (interior 1) eqn:I1; try ring;
        first [rewrite B1 by reflexivity; ring | rewrite B0 by reflexivity; ring].
  - exfalso. destruct Hcount as [Hc|D2]; [lia|].
    rewrite D2 in Ec. unfold count_bc in Ec. cbn in Ec.
    destruct (bcspace (ts 0%nat)), (bcspace (ts 1%nat)); cbn in Ec; lia.
Qed.
End Item.
End Form.
