(** FMMSweepProofs2.v -- sizes, the upward and the downward sweep. *)
From Coq Require Import Reals List Arith Bool Lia Lra.
From Verif Require Import Base RPoly HelmholtzProofs StencilProofs8 Leg2ChebProofs Leg2ChebProofs2 FMMModel FMMProofs FMMSweepModel FMMSweepProofs.
Import ListNotations.
Local Open Scope R_scope.

Lemma rsum_prod a b f : rsum (a * b) f = rsum a (fun q => rsum b (fun x => f (q * b + x)%nat)).
Proof.
  induction a as [|a IH]; [reflexivity|]. rewrite rsum_last, <- IH. clear IH. replace (S a * b)%nat with (a * b + b)%nat by lia.
  generalize (a * b)%nat. intros n. induction b as [|b IH]; [rewrite Nat.add_0_r; cbn; ring|]. replace (n + S b)%nat with (S (n + b)) by lia. rewrite !rsum_last, IH. ring.
Qed.
Section Sizes.
  Variables (D : list nat) (s diags : nat).
  Hypothesis HD : Forall (fun d => (0 < d)%nat) D.
  Hypothesis Hs : (0 < s)%nat.
  Definition hh (l : nat) : nat := (s * get_h l D)%nat.
  Definition tl_ (l : nat) : nat := list_sum (map (fun i => s * get_h i D) (seq (l + 1) (List.length D - (l + 1))))%nat.
  Definition col (l n : nat) : nat := (diags + (n + 1) * hh l + tl_ l)%nat.
  Lemma dl_pos l : (l < nL D)%nat -> (0 < dl D l)%nat.
  Proof. intros H. rewrite Forall_forall in HD. apply HD. apply nth_In. exact H. Qed.
  Lemma skipn_nth l : (l < nL D)%nat -> skipn l D = dl D l :: skipn (S l) D.
  Proof. unfold nL, dl. clear HD. revert l. induction D as [|x r IH]; intros l H; cbn [List.length] in H; [lia|]. destruct l; [reflexivity|]. cbn [skipn nth]. apply IH. lia. Qed.
  Lemma get_h_step l : (S l < nL D)%nat -> get_h l D = (dl D (S l) * get_h (S l) D)%nat.
  Proof. intros H. unfold get_h. rewrite Nat.add_1_r, skipn_nth by exact H. cbn [fold_right]. rewrite Nat.add_1_r. reflexivity. Qed.
  Lemma hh_step l : (S l < nL D)%nat -> hh l = (dl D (S l) * hh (S l))%nat.
  Proof. intros H. unfold hh. rewrite get_h_step by exact H. lia. Qed.
  Lemma hh_last : (0 < nL D)%nat -> hh (nL D - 1) = s.
  Proof. intros H. unfold hh, get_h. unfold nL in *. rewrite skipn_all2 by lia. cbn. lia. Qed.
  Lemma hh_pos l : (0 < hh l)%nat.
  Proof.
    unfold hh, get_h. assert (F : Forall (fun d => (0 < d)%nat) (skipn (l + 1) D)) by (apply Forall_forall; intros z Hz; rewrite Forall_forall in HD; apply HD; rewrite <- (firstn_skipn (l + 1) D); apply in_or_app; right; exact Hz).
    assert (0 < fold_right Nat.mul 1 (skipn (l + 1) D))%nat; [|nia]. induction F as [|z r Hz _ IH]; cbn [fold_right]; nia.
  Qed.
  Lemma tl_step l : (S l < nL D)%nat -> tl_ l = (hh (S l) + tl_ (S l))%nat.
  Proof. intros H. unfold tl_, nL in *. replace (List.length D - (l + 1))%nat with (S (List.length D - (S l + 1))) by lia. cbn [seq map list_sum fold_right]. replace (l + 1)%nat with (S l) by lia. unfold hh. replace (S (S l)) with (S l + 1)%nat by lia. reflexivity. Qed.
  Lemma nb_0 : nb D 0 = 1%nat. Proof. reflexivity. Qed.
  Lemma firstn_S l : (l < nL D)%nat -> firstn (S l) D = firstn l D ++ [dl D l].
  Proof. unfold nL, dl. clear HD. revert l. induction D as [|x r IH]; intros l H; cbn [List.length] in H; [lia|]. destruct l; [reflexivity|]. cbn [firstn nth app]. f_equal. apply IH. lia. Qed.
  Lemma nb_step l : (l < nL D)%nat -> nb D (S l) = (1 + nb D l * dl D l)%nat.
  Proof. intros H. unfold nb, get_number_of_blocks. rewrite firstn_S, rev_unit by exact H. cbn [cumprod list_sum fold_right]. change (fold_right Nat.add 0%nat) with list_sum. rewrite (cumprod_scale (1 * dl D l)). lia. Qed.
  Lemma nb_pos l : (0 < nb D l)%nat. Proof. unfold nb, get_number_of_blocks. lia. Qed.
  Lemma j0_col l b q : (get_j0 l b s D diags + (q + 1) * hh l = col l (b * dl D l + q))%nat.
  Proof. unfold get_j0, col, get_i0, hh, tl_, dl. lia. Qed.
  Lemma i0_row l b p : (get_i0 l b s D + p * hh l = (b * dl D l + p) * hh l)%nat.
  Proof. unfold get_i0, hh, dl. lia. Qed.
  Lemma col_child l n q : (S l < nL D)%nat -> col (S l) ((n + 1) * dl D (S l) + q) = (col l n + q * hh (S l))%nat.
  Proof. intros H. unfold col. rewrite (tl_step l), (hh_step l) by exact H. lia. Qed.

  (** ** the sweeps *)
  Variables (Mmin Nk : nat -> nat) (A : nat -> nat -> nat -> R).
  Variables (TT : nat -> nat -> R) (Th : nat -> nat -> nat -> nat -> R) (cia : nat -> R) (Phi : nat -> nat -> nat -> R).
  Let L := nL D.
  Hypothesis HL : (0 < L)%nat.
  Hypothesis HTT : forall x k, (x < s)%nat -> (k < Mmin (L - 1))%nat -> TT x k = Phi s x k.
  Hypothesis HTh : forall l q x k, (S l < L)%nat -> (q < dl D (S l))%nat -> (x < hh (S l))%nat -> (k < Mmin l)%nat ->
    Phi (hh l) (q * hh (S l) + x)%nat k = rsum (k + 1) (fun j => Th (dl D (S l)) q k j * Phi (hh (S l)) x j).
  Hypothesis Hmono : forall l, (S l < L)%nat -> (Mmin l <= Mmin (S l))%nat.
  (** number of submatrices on the levels >= l *)
  Definition cnt (l : nat) : nat := (nb D l * tr (dl D l))%nat.
  Definition off (l : nat) : nat := list_sum (map cnt (seq l (L - l))).
  Lemma off_step l : (l < L)%nat -> off l = (cnt l + off (S l))%nat.
  Proof. intros H. unfold off. replace (L - l)%nat with (S (L - S l)) by lia. reflexivity. Qed.
  Lemma off_L : off L = 0%nat. Proof. unfold off. rewrite Nat.sub_diag. reflexivity. Qed.
  Hypothesis HNk : forall l b q p, (l < L)%nat -> (b < nb D l)%nat -> (q < dl D l)%nat -> (p <= q)%nat -> (Nk (off (S l) + b * tr (dl D l) + tr q + p) <= Mmin l)%nat.
  Definition W (l n k : nat) : R := rsum (hh l) (fun x => Phi (hh l) x k * cia (col l n + x)%nat).
  Definition ownW (l n k : nat) : R := own D Nk A l (W l) (off (S l)) n k.
  Lemma tri_W l m q k : (S l < L)%nat -> (q < dl D (S l))%nat -> (k < Mmin l)%nat ->
    tri_lower (Mmin (S l)) (Th (dl D (S l)) q) (W (S l) ((m + 1) * dl D (S l) + q)%nat) k
    = rsum (hh (S l)) (fun x => Phi (hh l) (q * hh (S l) + x)%nat k * cia (col l m + (q * hh (S l) + x))%nat).
  Proof.
    intros Hl Hq Hk. unfold tri_lower. destruct (Nat.ltb_spec k (Mmin (S l))); [|specialize (Hmono l Hl); lia]. unfold W.
    rewrite (rsum_ext (k + 1) _ (fun j => rsum (hh (S l)) (fun x => Th (dl D (S l)) q k j * Phi (hh (S l)) x j * cia (col l m + (q * hh (S l) + x))%nat))).
    2:{ intros j Hj. rewrite <- rsum_scal. apply rsum_ext. intros x Hx. rewrite col_child, Nat.add_assoc by exact Hl. ring. }
    rewrite gsum_swap. apply rsum_ext. intros x Hx. rewrite HTh by assumption. rewrite Rmult_comm, <- rsum_scal. apply rsum_ext. intros j Hj. ring.
  Qed.
  Lemma lift_W l m k : (S l < L)%nat -> (k < Mmin l)%nat -> lift D Mmin Th (S l) (W (S l)) (m + 1) (dl D (S l)) k = W l m k.
  Proof.
    intros Hl Hk. unfold lift. rewrite (rsum_ext _ _ (fun q => rsum (hh (S l)) (fun x => (fun y => Phi (hh l) y k * cia (col l m + y)%nat) (q * hh (S l) + x)%nat))).
    - rewrite <- (rsum_prod (dl D (S l)) (hh (S l)) (fun y => Phi (hh l) y k * cia (col l m + y)%nat)). unfold W. rewrite (hh_step l) by exact Hl. reflexivity.
    - intros q Hq. apply tri_W; assumption.
  Qed.
  Lemma leaf_W b q k : (k < Mmin (L - 1))%nat -> leaf D s diags Mmin TT cia (L - 1) b q k = W (L - 1) (b * dl D (L - 1) + q) k.
  Proof.
    intros Hk. unfold leaf, mv_T. destruct (Nat.ltb_spec k (Mmin (L - 1))); [|lia]. unfold W. pose proof (hh_last HL) as E. fold L in E. rewrite E. apply rsum_ext. intros i Hi.
    rewrite <- j0_col, E, HTT by lia. ring.
  Qed.
  Record Uinv (i : nat) (st : nat * buf * buf) : Prop := {
    Ui : fst (fst st) = off i;
    U0 : forall lev m k, (lev + 1 < i \/ i = L)%nat -> snd (fst st) lev m k = 0;
    U1 : forall l m k, i = S l -> (S l < L)%nat -> (m < nb D l * dl D l)%nat -> (k < Mmin l)%nat -> snd (fst st) l m k = W l m k;
    Uc : forall lev n k, snd st lev n k = guard (Nat.leb i lev && Nat.ltb lev L && Nat.ltb n (nb D lev * dl D lev)) (ownW lev n k) }.
  Lemma up_sweep : Uinv 0 (for_down L (sweep_level D s diags Mmin Nk A TT Th cia) (0%nat, zbuf, zbuf)).
  Proof.
    apply (for_down_inv Uinv).
    - constructor; cbn [fst snd]; intros; try reflexivity.
      + symmetry. apply off_L.
      + lia.
      + unfold zbuf, guard. destruct (Nat.leb_spec L lev); cbn [andb]; [|reflexivity]. destruct (Nat.ltb_spec lev L); [lia|reflexivity].
    - intros l [[ik wk] ck] Hl [Ii I0 I1 Ic]. cbn [fst snd] in *.
      assert (Hd : (0 < dl D l)%nat) by (apply dl_pos; exact Hl).
      pose proof (level_step D s diags Mmin Nk A TT Th cia l Hd (fun _ => dl_pos (l - 1) ltac:(fold L; lia)) (W l) wk) as S0.
      assert (Hw : forall b q k, (b < nb D l)%nat -> (q < dl D l)%nat -> (k < Mmin l)%nat ->
        W l (b * dl D l + q)%nat k = if Nat.eqb l (nL D - 1) then leaf D s diags Mmin TT cia l b q k else wk l (b * dl D l + q)%nat k).
      { intros b q k Hb Hq Hk. fold L. destruct (Nat.eqb_spec l (L - 1)) as [->|Hne].
        - symmetry. apply leaf_W. exact Hk.
        - symmetry. apply I1; [reflexivity|lia|nia|exact Hk]. }
      specialize (S0 Hw ik ck). rewrite Ii in S0. specialize (S0 (fun b q p => HNk l b q p Hl)).
      rewrite Ii. destruct (sweep_level _ _ _ _ _ _ _ _ _ l (off (S l), wk, ck)) as [[ik' wk'] ck']. destruct S0 as [Bi B1 B2 B3 Bc]. cbn [fst snd] in *.
      constructor; cbn [fst snd].
      + rewrite Bi, (off_step l) by exact Hl. unfold cnt. lia.
      + intros lev m k Hlev. rewrite B3 by lia. apply I0. lia.
      + intros l' m k El Hl' Hm Hk. subst l. specialize (B2 ltac:(lia) m k). replace (S l' - 1)%nat with l' in B2 by lia. rewrite B2, I0 by lia. unfold guard. rewrite nb_step by lia.
        destruct (Nat.ltb_spec (m + 1) (1 + nb D l' * dl D l')); [|lia]. rewrite lift_W by assumption. ring.
      + intros lev n k. rewrite Bc, Ic. unfold guard. destruct (Nat.leb_spec (S l) lev); destruct (Nat.leb_spec l lev); destruct (Nat.eqb_spec lev l); try lia; cbn [andb].
        * destruct (_ && _)%bool; ring.
        * subst lev. destruct (Nat.ltb_spec l L); [|lia]. cbn [andb]. unfold ownW. destruct (Nat.ltb n _); ring.
        * ring.
  Qed.
  (** downwards *)
  Lemma down_step l ck lev n k : (S l < L)%nat -> down_level D Mmin Th l ck lev n k
    = ck lev n k + guard (Nat.eqb lev (S l) && Nat.ltb n ((nb D (S l) - 1) * dl D (S l)))
        (tri_upper (Mmin l) (Mmin l) (fun i j => Th (dl D (S l)) (n mod dl D (S l))%nat j i) (ck l (n / dl D (S l))%nat) k).
  Proof.
    intros Hl. unfold down_level. rewrite Nat.add_1_r. set (d := dl D (S l)). assert (Hd : (0 < d)%nat) by (apply dl_pos; exact Hl).
    set (body := fun b st => for_up d 0 _ st).
    assert (P : forall b j1 c0 c, (forall m k, c0 l m k = ck l m k) -> exists c', for_up c 0 (fun p st => let '(j1, ck) := st in
        (S j1, badd ck (S l) j1 (tri_upper (Mmin l) (Mmin l) (fun i j => Th d p j i) (ck l b)))) (j1, c0) = ((j1 + c)%nat, c') /\
        forall lev n k, c' lev n k = c0 lev n k + guard (Nat.eqb lev (S l) && Nat.leb j1 n && Nat.ltb n (j1 + c)) (tri_upper (Mmin l) (Mmin l) (fun i j => Th d (n - j1)%nat j i) (ck l b) k)).
    { intros b j1 c0 c H0. induction c as [|c IH].
      - exists c0. cbn [for_up]. split; [rewrite Nat.add_0_r; reflexivity|]. intros lev' n' k'. unfold guard. destruct (Nat.eqb lev' (S l)); cbn [andb]; [|ring]. destruct (Nat.leb_spec j1 n'); cbn [andb]; [|ring]. destruct (Nat.ltb_spec n' (j1 + 0)); [lia|ring].
      - destruct IH as (c' & E & H). eexists. split.
        + rewrite for_up_snoc, E. cbn [Nat.add]. f_equal. lia.
        + intros lev' n' k'. unfold badd. rewrite !H. unfold guard. destruct (Nat.eqb_spec lev' (S l)); cbn [andb]; [|ring].
          assert (EL : forall m k, c' l m k = ck l m k). { intros m k0. rewrite H. unfold guard. destruct (Nat.eqb_spec l (S l)); [lia|]. cbn [andb]. rewrite H0. ring. }
          destruct (Nat.eqb_spec n' (j1 + c)) as [->|Hn].
          * destruct (Nat.leb_spec j1 (j1 + c)); [|lia]. destruct (Nat.ltb_spec (j1 + c) (j1 + c)); [lia|]. destruct (Nat.ltb_spec (j1 + c) (j1 + S c)); [|lia]. cbn [andb].
            replace (j1 + c - j1)%nat with c by lia. rewrite Rplus_0_r. f_equal. unfold tri_upper. destruct (Nat.ltb k' (Mmin l)); [|reflexivity]. apply rsum_ext. intros j Hj. rewrite EL. reflexivity.
          * destruct (Nat.leb_spec j1 n'); cbn [andb]; [|ring]. destruct (Nat.ltb_spec n' (j1 + c)); destruct (Nat.ltb_spec n' (j1 + S c)); try lia; ring. }
    assert (G : forall c, exists c', for_up c 0 body (0%nat, ck) = ((c * d)%nat, c') /\
      forall lev n k, c' lev n k = ck lev n k + guard (Nat.eqb lev (S l) && Nat.ltb n (c * d)) (tri_upper (Mmin l) (Mmin l) (fun i j => Th d (n mod d)%nat j i) (ck l (n / d)%nat) k)).
    { induction c as [|c IH].
      - exists ck. cbn [for_up]. split; [reflexivity|]. intros lev' n' k'. unfold guard. rewrite andb_comm. cbn [Nat.mul]. destruct (Nat.ltb_spec n' 0); [lia|]. cbn [andb]. ring.
      - destruct IH as (c' & E & H). rewrite for_up_snoc, E. cbn [Nat.add]. unfold body.
        destruct (P c (c * d)%nat c' d) as (c'' & E2 & H2). { intros m k0. rewrite H. unfold guard. destruct (Nat.eqb_spec l (S l)); [lia|]. cbn [andb]. ring. }
        exists c''. split; [etransitivity; [exact E2|f_equal; lia]|]. intros lev' n' k'. rewrite H2, H. unfold guard. destruct (Nat.eqb lev' (S l)); cbn [andb]; [|ring].
        destruct (Nat.ltb_spec n' (c * d)); destruct (Nat.leb_spec (c * d) n'); destruct (Nat.ltb_spec n' (c * d + d)); destruct (Nat.ltb_spec n' (S c * d)); cbn [andb]; try lia; try ring.
        replace (n' / d)%nat with c by (apply (Nat.div_unique n' d c (n' - c * d)); lia). replace (n' mod d)%nat with (n' - c * d)%nat by (apply (Nat.mod_unique n' d c (n' - c * d)); lia). ring. }
    destruct (G (nb D (S l) - 1)%nat) as (c' & E & H). rewrite E. cbn [snd]. apply H.
  Qed.
End Sizes.
