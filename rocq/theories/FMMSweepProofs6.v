(** FMMSweepProofs6.v -- the transposed product: one level and the whole of the upward sweep. *)
From Coq Require Import Reals List Arith Bool Lia Lra.
From Verif Require Import Base RPoly HelmholtzProofs StencilProofs8 Leg2ChebProofs Leg2ChebProofs2 FMMModel FMMProofs FMMSweepModel FMMSweepProofs FMMSweepProofs2.
Import ListNotations.
Local Open Scope R_scope.

Section Level.
  Variables (D : list nat) (s : nat) (Mmin Nk : nat -> nat) (A : nat -> nat -> nat -> R).
  Variables (TT : nat -> nat -> R) (Th : nat -> nat -> nat -> nat -> R) (cia : nat -> R).
  Variable l : nat.
  Let d := dl D l.
  Let M0 := Mmin l.
  Hypothesis Hd : (0 < d)%nat.
  Lemma qT_part b p ik wk ck c : (c <= p)%nat -> exists ck', for_up c 0 (sweepT_q D s Mmin Nk A TT Th cia l b p) (ik, wk, ck) = ((ik + c)%nat, wk, ck') /\
    forall lev n k, ck' lev n k = ck lev n k + guard (Nat.eqb lev l && Nat.eqb n (b * d + p)) (rsum c (fun q => mv_T (Nk (ik + q)%nat) (Nk (ik + q)%nat) (A (ik + q)%nat) (wk l (b * d + q)%nat) k)).
  Proof.
    induction c as [|c IH]; intros Hc.
    - exists ck. cbn [for_up]. split; [rewrite Nat.add_0_r; reflexivity|]. intros lev n k. cbn [gsum]. unfold guard. destruct (_ && _)%bool; ring.
    - destruct IH as (ck' & E & H); [lia|]. exists (badd ck' l (b * d + p) (mv_T (Nk (ik + c)%nat) (Nk (ik + c)%nat) (A (ik + c)%nat) (wk l (b * d + c)%nat))). split.
      + rewrite for_up_snoc, E. cbn [Nat.add]. unfold sweepT_q. fold d. destruct (Nat.eqb_spec c p); [lia|]. cbn [andb]. f_equal. f_equal. lia.
      + intros lev n k. unfold badd. rewrite H, rsum_last. unfold guard. destruct (Nat.eqb lev l && Nat.eqb n (b * d + p))%bool; ring.
  Qed.
  Variable w : nat -> nat -> R.
  Variable wk0 : buf.
  Definition leafT (b q k : nat) : R := mv_T s M0 TT (fun i => cia (get_i0 l b s D + q * s + i)%nat) k.
  Hypothesis Hw : forall b q k, (b < nb D l)%nat -> (q < d)%nat -> (k < M0)%nat ->
    w (b * d + q)%nat k = if Nat.eqb l (nL D - 1) then wk0 l (b * d + q)%nat k + leafT b q k else wk0 l (b * d + q)%nat k.
  Variables (ik0 : nat) (ck0 : buf).
  Hypothesis HNk : forall b q p, (b < nb D l)%nat -> (q < d)%nat -> (p <= q)%nat -> (Nk (ik0 + b * tr d + tr q + p) <= M0)%nat.
  (** column piece n of block b: all rows q <= n - b d *)
  Definition termT (ikb b n k : nat) : R :=
    rsum (n - b * d + 1) (fun q => mv_T (Nk (ikb + tr (n - b * d) + q)%nat) (Nk (ikb + tr (n - b * d) + q)%nat) (A (ikb + tr (n - b * d) + q)%nat) (w (b * d + q)%nat) k).
  Definition liftT (b c k : nat) : R := rsum c (fun q => tri_lower M0 (Th d q) (w (b * d + q)%nat) k).
  Record Pinv (b ikb : nat) (wkb ckb : buf) (c : nat) (st : nat * buf * buf) : Prop := {
    Pi : fst (fst st) = (ikb + tr c)%nat;
    P1 : forall m k, (b * d + c <= m)%nat -> snd (fst st) l m k = wkb l m k;
    P1' : forall q k, (q < c)%nat -> (k < M0)%nat -> snd (fst st) l (b * d + q)%nat k = w (b * d + q)%nat k;
    P2 : (0 < l)%nat -> forall m k, snd (fst st) (l - 1)%nat m k = wkb (l - 1)%nat m k + guard (Nat.ltb b (nb D l - 1) && Nat.eqb m b) (liftT b c k);
    P3 : forall lev m k, lev <> l -> (lev + 1 <> l)%nat -> snd (fst st) lev m k = wkb lev m k;
    Pc : forall lev n k, snd st lev n k = ckb lev n k + guard (Nat.eqb lev l && Nat.leb (b * d) n && Nat.ltb n (b * d + c)) (termT ikb b n k) }.
  Lemma pT_loop b ikb wkb ckb c : (b < nb D l)%nat -> ikb = (ik0 + b * tr d)%nat -> (c <= d)%nat ->
    (forall m k, (b * d <= m)%nat -> wkb l m k = wk0 l m k) ->
    Pinv b ikb wkb ckb c (for_up c 0 (fun p st => for_up (p + 1) 0 (sweepT_q D s Mmin Nk A TT Th cia l b p) st) (ikb, wkb, ckb)).
  Proof.
    intros Hb Eik Hc H0. induction c as [|c IH].
    - cbn [for_up]. constructor; cbn [fst snd]; intros; try reflexivity; try lia.
      + cbn [tr]. lia.
      + unfold liftT. cbn [gsum]. unfold guard. destruct (_ && _)%bool; ring.
      + unfold guard. destruct (Nat.eqb lev l); cbn [andb]; [|ring]. destruct (Nat.leb_spec (b * d) n); cbn [andb]; [|ring]. destruct (Nat.ltb_spec n (b * d + 0)); [lia|ring].
    - specialize (IH ltac:(lia)). rewrite for_up_snoc. cbn [Nat.add]. destruct (for_up c 0 _ _) as [[ik wk] ck]. destruct IH as [Ii I1 I1' I2 I3 Ic]. cbn [fst snd] in *.
      rewrite Nat.add_1_r, for_up_snoc. cbn [Nat.add]. destruct (qT_part b c ik wk ck c (le_n c)) as (ck1 & E & HC). rewrite E. clear E.
      unfold sweepT_q. fold d M0. rewrite Nat.eqb_refl. cbn [andb].
      set (wk1 := if Nat.eqb l (nL D - 1) then _ else wk).
      assert (W1 : forall m k, m <> (b * d + c)%nat -> wk1 l m k = wk l m k).
      { intros m k Hm. unfold wk1. destruct (Nat.eqb l (nL D - 1)); [|reflexivity]. unfold badd. rewrite Nat.eqb_refl. destruct (Nat.eqb_spec m (b * d + c)); [contradiction|]. reflexivity. }
      assert (W1' : forall k, (k < M0)%nat -> wk1 l (b * d + c)%nat k = w (b * d + c)%nat k).
      { intros k Hk. rewrite Hw by lia. unfold wk1. destruct (Nat.eqb l (nL D - 1)).
        - unfold badd. rewrite !Nat.eqb_refl. cbn [andb]. rewrite I1, H0 by lia. reflexivity.
        - rewrite I1 by lia. apply H0. lia. }
      assert (W3 : forall lev m k, lev <> l -> wk1 lev m k = wk lev m k).
      { intros lev m k Hl. unfold wk1. destruct (Nat.eqb l (nL D - 1)); [|reflexivity]. unfold badd. destruct (Nat.eqb_spec lev l); [contradiction|]. reflexivity. }
      set (wk2 := if (Nat.ltb 0 l && Nat.ltb b (nb D l - 1))%bool then _ else wk1).
      assert (X3 : forall lev m k, lev <> (l - 1)%nat \/ l = 0%nat -> wk2 lev m k = wk1 lev m k).
      { intros lev m k Hl. unfold wk2. destruct (Nat.ltb_spec 0 l); cbn [andb]; [|reflexivity]. destruct (Nat.ltb b (nb D l - 1)); [|reflexivity]. cbv zeta. unfold badd. destruct (Nat.eqb_spec lev (l - 1)); [lia|]. reflexivity. }
      assert (X1 : forall m k, wk2 l m k = wk1 l m k) by (intros m k; apply X3; lia).
      assert (X2 : (0 < l)%nat -> forall m k, wk2 (l - 1)%nat m k = wk (l - 1)%nat m k + guard (Nat.ltb b (nb D l - 1) && Nat.eqb m b) (tri_lower M0 (Th d c) (w (b * d + c)%nat) k)).
      { intros Hl m k. unfold wk2. destruct (Nat.ltb_spec 0 l); [|lia]. cbn [andb]. destruct (Nat.ltb_spec b (nb D l - 1)); cbn [andb].
        - cbv zeta. unfold badd. rewrite Nat.eqb_refl. cbn [andb]. rewrite W3 by lia.
          assert (E : (b / d * d + b mod d = b)%nat) by (rewrite (Nat.mul_comm _ d); symmetry; apply Nat.div_mod; lia).
          rewrite E. unfold guard. destruct (Nat.eqb_spec m b); [|ring]. f_equal. apply tri_ext. intros j Hj. apply W1'. exact Hj.
        - rewrite W3 by lia. unfold guard. ring. }
      constructor; cbn [fst snd].
      + rewrite Ii. cbn [tr]. lia.
      + intros m k Hm. rewrite X1, W1 by lia. apply I1. lia.
      + intros q k Hq Hk. rewrite X1. destruct (Nat.eq_dec q c) as [->|Hne]; [apply W1'; exact Hk|]. rewrite W1 by lia. apply I1'; lia.
      + intros Hl m k. rewrite X2 by exact Hl. rewrite I2 by exact Hl. unfold liftT. rewrite rsum_last. unfold guard. destruct (Nat.ltb b (nb D l - 1) && Nat.eqb m b)%bool; ring.
      + intros lev m k H1 H2. rewrite X3 by lia. rewrite W3 by exact H1. apply I3; assumption.
      + intros lev n k. unfold badd. rewrite HC, Ic. unfold guard. destruct (Nat.eqb lev l); cbn [andb]; [|ring].
        destruct (Nat.eqb_spec n (b * d + c)) as [->|Hn].
        * destruct (Nat.leb_spec (b * d) (b * d + c)); [|lia]. destruct (Nat.ltb_spec (b * d + c) (b * d + c)); [lia|]. destruct (Nat.ltb_spec (b * d + c) (b * d + S c)); [|lia]. cbn [andb].
          unfold termT. replace (b * d + c - b * d)%nat with c by lia. rewrite Nat.add_1_r, rsum_last. rewrite Ii.
          assert (HN : forall q, (q <= c)%nat -> (Nk (ikb + tr c + q) <= M0)%nat) by (intros q Hq; rewrite Eik; apply HNk; lia).
          rewrite Rplus_0_r, Rplus_assoc. f_equal. f_equal.
          -- apply rsum_ext. intros q Hq. apply mv_T_ext. intros j Hj. apply I1'; [exact Hq|]. specialize (HN q ltac:(lia)). lia.
          -- apply mv_T_ext. intros j Hj. rewrite X1. apply W1'. specialize (HN c ltac:(lia)). lia.
        * destruct (Nat.leb_spec (b * d) n); cbn [andb]; [|ring]. destruct (Nat.ltb_spec n (b * d + c)); destruct (Nat.ltb_spec n (b * d + S c)); try lia; ring.
  Qed.
  Definition ownT (n k : nat) : R := termT (ik0 + n / d * tr d) (n / d) n k.
  Record BTinv (c : nat) (st : nat * buf * buf) : Prop := {
    BTi : fst (fst st) = (ik0 + c * tr d)%nat;
    BT1 : forall m k, (c * d <= m)%nat -> snd (fst st) l m k = wk0 l m k;
    BT2 : (0 < l)%nat -> forall m k, snd (fst st) (l - 1)%nat m k = wk0 (l - 1)%nat m k + guard (Nat.ltb m c && Nat.ltb m (nb D l - 1)) (liftT m d k);
    BT3 : forall lev m k, lev <> l -> (lev + 1 <> l)%nat -> snd (fst st) lev m k = wk0 lev m k;
    BTc : forall lev n k, snd st lev n k = ck0 lev n k + guard (Nat.eqb lev l && Nat.ltb n (c * d)) (ownT n k) }.
  Lemma levelT_step : BTinv (nb D l) (sweepT_level D s Mmin Nk A TT Th cia l (ik0, wk0, ck0)).
  Proof.
    unfold sweepT_level. fold d. assert (G : forall c, (c <= nb D l)%nat -> BTinv c (for_up c 0 (fun b st => for_up d 0 (fun p st => for_up (p + 1) 0 (sweepT_q D s Mmin Nk A TT Th cia l b p) st) st) (ik0, wk0, ck0))).
    2:{ apply G. lia. }
    induction c as [|c IH]; intros Hc.
    - cbn [for_up]. constructor; cbn [fst snd]; intros; try reflexivity.
      + lia.
      + unfold guard. destruct (Nat.ltb_spec m 0); [lia|]. cbn [andb]. ring.
      + unfold guard. rewrite andb_comm. cbn [Nat.mul]. destruct (Nat.ltb_spec n 0); [lia|]. cbn [andb]. ring.
    - specialize (IH ltac:(lia)). rewrite for_up_snoc. cbn [Nat.add]. destruct (for_up c 0 _ _) as [[ik wk] ck]. destruct IH as [Ii I1 I2 I3 Ic]. cbn [fst snd] in *.
      pose proof (pT_loop c ik wk ck d ltac:(lia) Ii (le_n d) I1) as Q. destruct (for_up d 0 _ _) as [[ik' wk'] ck']. destruct Q as [Qi Q1 _ Q2 Q3 Qc]. cbn [fst snd] in *.
      constructor; cbn [fst snd].
      + rewrite Qi, Ii. lia.
      + intros m k Hm. rewrite Q1 by lia. apply I1. lia.
      + intros Hl m k. rewrite Q2, I2 by exact Hl. unfold guard. destruct (Nat.eqb_spec m c) as [Em|]; destruct (Nat.ltb_spec m c); destruct (Nat.ltb_spec m (S c)); try lia; cbn [andb]; try subst m; rewrite ?andb_false_r, ?andb_true_r; try ring.
      + intros lev m k H1 H2. rewrite Q3 by assumption. apply I3; assumption.
      + intros lev n k. rewrite Qc, Ic. unfold guard. destruct (Nat.eqb lev l); cbn [andb]; [|ring].
        destruct (Nat.ltb_spec n (c * d)); destruct (Nat.leb_spec (c * d) n); destruct (Nat.ltb_spec n (c * d + d)); destruct (Nat.ltb_spec n (S c * d)); cbn [andb]; try lia; try ring.
        unfold ownT. replace (n / d)%nat with c by (apply (Nat.div_unique n d c (n - c * d)); lia). rewrite Ii. ring.
  Qed.
End Level.
Section Up.
  Variables (D : list nat) (s : nat).
  Hypothesis HD : Forall (fun d => (0 < d)%nat) D.
  Hypothesis Hs : (0 < s)%nat.
  Variables (Mmin Nk : nat -> nat) (A : nat -> nat -> nat -> R).
  Variables (TT : nat -> nat -> R) (Th : nat -> nat -> nat -> nat -> R) (cia : nat -> R) (Phi : nat -> nat -> nat -> R).
  Let L := nL D.
  Hypothesis HL : (0 < L)%nat.
  Hypothesis HTT : forall x k, (x < s)%nat -> (k < Mmin (L - 1))%nat -> TT x k = Phi s x k.
  Hypothesis HTh : forall l q x k, (S l < L)%nat -> (q < dl D (S l))%nat -> (x < hh D s (S l))%nat -> (k < Mmin l)%nat ->
    Phi (hh D s l) (q * hh D s (S l) + x)%nat k = rsum (k + 1) (fun j => Th (dl D (S l)) q k j * Phi (hh D s (S l)) x j).
  Hypothesis Hmono : forall l, (S l < L)%nat -> (Mmin l <= Mmin (S l))%nat.
  Hypothesis HNk : forall l b q p, (l < L)%nat -> (b < nb D l)%nat -> (q < dl D l)%nat -> (p <= q)%nat -> (Nk (off D (S l) + b * tr (dl D l) + tr q + p) <= Mmin l)%nat.
  Definition WT (l n k : nat) : R := rsum (hh D s l) (fun x => Phi (hh D s l) x k * cia (n * hh D s l + x)%nat).
  Definition ownWT (l n k : nat) : R := ownT D Nk A l (WT l) (off D (S l)) n k.
  Lemma tri_WT l m q k : (S l < L)%nat -> (q < dl D (S l))%nat -> (k < Mmin l)%nat ->
    tri_lower (Mmin (S l)) (Th (dl D (S l)) q) (WT (S l) (m * dl D (S l) + q)%nat) k
    = rsum (hh D s (S l)) (fun x => Phi (hh D s l) (q * hh D s (S l) + x)%nat k * cia (m * hh D s l + (q * hh D s (S l) + x))%nat).
  Proof.
    intros Hl Hq Hk. unfold tri_lower. destruct (Nat.ltb_spec k (Mmin (S l))); [|specialize (Hmono l Hl); lia]. unfold WT.
    rewrite (rsum_ext (k + 1) _ (fun j => rsum (hh D s (S l)) (fun x => Th (dl D (S l)) q k j * Phi (hh D s (S l)) x j * cia (m * hh D s l + (q * hh D s (S l) + x))%nat))).
    2:{ intros j Hj. rewrite <- rsum_scal. apply rsum_ext. intros x Hx. rewrite (hh_step D s Hs l) by exact Hl.
        replace ((m * dl D (S l) + q) * hh D s (S l) + x)%nat with (m * (dl D (S l) * hh D s (S l)) + (q * hh D s (S l) + x))%nat by lia. ring. }
    rewrite gsum_swap. apply rsum_ext. intros x Hx. rewrite HTh by assumption. rewrite Rmult_comm, <- rsum_scal. apply rsum_ext. intros j Hj. ring.
  Qed.
  Lemma lift_WT l m k : (S l < L)%nat -> (k < Mmin l)%nat -> liftT D Mmin Th (S l) (WT (S l)) m (dl D (S l)) k = WT l m k.
  Proof.
    intros Hl Hk. unfold liftT. rewrite (rsum_ext _ _ (fun q => rsum (hh D s (S l)) (fun x => (fun y => Phi (hh D s l) y k * cia (m * hh D s l + y)%nat) (q * hh D s (S l) + x)%nat))).
    - rewrite <- (rsum_prod (dl D (S l)) (hh D s (S l)) (fun y => Phi (hh D s l) y k * cia (m * hh D s l + y)%nat)). unfold WT. rewrite (hh_step D s Hs l) by exact Hl. reflexivity.
    - intros q Hq. apply tri_WT; assumption.
  Qed.
  Lemma leaf_WT b q k : (k < Mmin (L - 1))%nat -> leafT D s Mmin TT cia (L - 1) b q k = WT (L - 1) (b * dl D (L - 1) + q) k.
  Proof.
    intros Hk. unfold leafT, mv_T. destruct (Nat.ltb_spec k (Mmin (L - 1))); [|lia]. unfold WT. pose proof (hh_last D s Hs HL) as E. fold L in E. rewrite E. apply rsum_ext. intros i Hi.
    pose proof (i0_row D s Hs (L - 1) b q) as ER. rewrite E in ER. rewrite ER, HTT by lia. ring.
  Qed.
  Record UTinv (i : nat) (st : nat * buf * buf) : Prop := {
    UTi : fst (fst st) = off D i;
    UT0 : forall lev m k, (lev + 1 < i \/ i = L)%nat -> snd (fst st) lev m k = 0;
    UT1 : forall l m k, i = S l -> (S l < L)%nat -> (m < nb D l * dl D l)%nat -> (k < Mmin l)%nat -> snd (fst st) l m k = WT l m k;
    UTc : forall lev n k, snd st lev n k = guard (Nat.leb i lev && Nat.ltb lev L && Nat.ltb n (nb D lev * dl D lev)) (ownWT lev n k) }.
  Lemma upT_sweep : UTinv 0 (for_down L (sweepT_level D s Mmin Nk A TT Th cia) (0%nat, zbuf, zbuf)).
  Proof.
    apply (for_down_inv UTinv).
    - constructor; cbn [fst snd]; intros; try reflexivity.
      + unfold off. fold L. rewrite Nat.sub_diag. reflexivity.
      + lia.
      + unfold zbuf, guard. destruct (Nat.leb_spec L lev); cbn [andb]; [|reflexivity]. destruct (Nat.ltb_spec lev L); [lia|reflexivity].
    - intros l [[ik wk] ck] Hl [Ii I0 I1 Ic]. cbn [fst snd] in *.
      assert (Hd : (0 < dl D l)%nat) by (apply (dl_pos D HD); exact Hl).
      pose proof (levelT_step D s Mmin Nk A TT Th cia l Hd (WT l) wk) as S0.
      assert (Hw : forall b q k, (b < nb D l)%nat -> (q < dl D l)%nat -> (k < Mmin l)%nat ->
        WT l (b * dl D l + q)%nat k = if Nat.eqb l (nL D - 1) then wk l (b * dl D l + q)%nat k + leafT D s Mmin TT cia l b q k else wk l (b * dl D l + q)%nat k).
      { intros b q k Hb Hq Hk. fold L. destruct (Nat.eqb_spec l (L - 1)) as [->|Hne].
        - rewrite I0 by lia. rewrite Rplus_0_l. symmetry. apply leaf_WT. exact Hk.
        - symmetry. apply I1; [reflexivity|lia|nia|exact Hk]. }
      specialize (S0 Hw ik ck). rewrite Ii in S0. specialize (S0 (fun b q p => HNk l b q p Hl)).
      rewrite Ii. destruct (sweepT_level _ _ _ _ _ _ _ _ l (off D (S l), wk, ck)) as [[ik' wk'] ck']. destruct S0 as [Bi B1 B2 B3 Bc]. cbn [fst snd] in *.
      constructor; cbn [fst snd].
      + rewrite Bi. unfold off at 2. fold L. replace (L - l)%nat with (S (L - S l)) by lia. cbn [seq map list_sum fold_right]. change (fold_right Nat.add 0%nat) with list_sum. unfold off, cnt. fold L. lia.
      + intros lev m k Hlev. rewrite B3 by lia. apply I0. lia.
      + intros l' m k El Hl' Hm Hk. subst l. specialize (B2 ltac:(lia) m k). replace (S l' - 1)%nat with l' in B2 by lia. rewrite B2, I0 by lia. unfold guard. rewrite (nb_step D s Hs) by (fold L; lia).
        destruct (Nat.ltb_spec m (1 + nb D l' * dl D l')); [|lia]. destruct (Nat.ltb_spec m (1 + nb D l' * dl D l' - 1)); [|lia]. cbn [andb]. rewrite lift_WT by assumption. ring.
      + intros lev n k. rewrite Bc, Ic. unfold guard. destruct (Nat.leb_spec (S l) lev); destruct (Nat.leb_spec l lev); destruct (Nat.eqb_spec lev l); try lia; cbn [andb].
        * destruct (_ && _)%bool; ring.
        * subst lev. destruct (Nat.ltb_spec l L); [|lia]. cbn [andb]. unfold ownWT. destruct (Nat.ltb n _); ring.
        * ring.
  Qed.
  (** downwards *)
  Lemma downT_step l ck lev n k : (S l < L)%nat -> downT_level D Mmin Th l ck lev n k
    = ck lev n k + guard (Nat.eqb lev (S l) && Nat.leb (dl D (S l)) n && Nat.ltb n (nb D (S l) * dl D (S l)))
        (tri_upper (Mmin l) (Mmin l) (fun i j => Th (dl D (S l)) (n mod dl D (S l))%nat j i) (ck l (n / dl D (S l) - 1)%nat) k).
  Proof.
    intros Hl. unfold downT_level. rewrite Nat.add_1_r. set (d := dl D (S l)). assert (Hd : (0 < d)%nat) by (apply (dl_pos D HD); exact Hl).
    assert (Hd1 : (0 < dl D l)%nat) by (apply (dl_pos D HD); fold L; lia).
    set (body := fun b ck => for_up d 0 _ ck).
    assert (P : forall b c0 c, (1 <= b)%nat -> (forall m k, c0 l m k = ck l m k) -> forall lev n k,
        for_up c 0 (fun p ck => let b0 := ((b - 1) / dl D l)%nat in let p0 := ((b - 1) mod dl D l)%nat in
          badd ck (S l) (b * d + p) (tri_upper (Mmin l) (Mmin l) (fun i j => Th d p j i) (ck l (b0 * dl D l + p0)%nat))) c0 lev n k
        = c0 lev n k + guard (Nat.eqb lev (S l) && Nat.leb (b * d) n && Nat.ltb n (b * d + c)) (tri_upper (Mmin l) (Mmin l) (fun i j => Th d (n - b * d)%nat j i) (ck l (b - 1)%nat) k)).
    { intros b c0 c Hb H0. assert (E : ((b - 1) / dl D l * dl D l + (b - 1) mod dl D l = b - 1)%nat) by (rewrite (Nat.mul_comm _ (dl D l)); symmetry; apply Nat.div_mod; lia).
      cbv zeta. rewrite E. induction c as [|c IH]; intros lev' n' k'.
      - cbn [for_up]. unfold guard. destruct (Nat.eqb lev' (S l)); cbn [andb]; [|ring]. destruct (Nat.leb_spec (b * d) n'); cbn [andb]; [|ring]. destruct (Nat.ltb_spec n' (b * d + 0)); [lia|ring].
      - rewrite for_up_snoc. cbn [Nat.add]. match goal with |- context [for_up c 0 ?f ?z] => set (c1 := for_up c 0 f z) in * end. unfold badd.
        assert (EL : forall m k, c1 l m k = ck l m k). { intros m k0. rewrite IH. unfold guard. destruct (Nat.eqb_spec l (S l)); [lia|]. cbn [andb]. rewrite H0. ring. }
        rewrite !IH. unfold guard. destruct (Nat.eqb_spec lev' (S l)); cbn [andb]; [|ring].
        destruct (Nat.eqb_spec n' (b * d + c)) as [->|Hn].
        + destruct (Nat.leb_spec (b * d) (b * d + c)); [|lia]. destruct (Nat.ltb_spec (b * d + c) (b * d + c)); [lia|]. destruct (Nat.ltb_spec (b * d + c) (b * d + S c)); [|lia]. cbn [andb].
          replace (b * d + c - b * d)%nat with c by lia. rewrite Rplus_0_r. f_equal. unfold tri_upper. destruct (Nat.ltb k' (Mmin l)); [|reflexivity]. apply rsum_ext. intros j Hj. rewrite EL. reflexivity.
        + destruct (Nat.leb_spec (b * d) n'); cbn [andb]; [|ring]. destruct (Nat.ltb_spec n' (b * d + c)); destruct (Nat.ltb_spec n' (b * d + S c)); try lia; ring. }
    assert (G : forall c lev n k, for_up c 1 body ck lev n k
      = ck lev n k + guard (Nat.eqb lev (S l) && Nat.leb d n && Nat.ltb n (S c * d)) (tri_upper (Mmin l) (Mmin l) (fun i j => Th d (n mod d)%nat j i) (ck l (n / d - 1)%nat) k)).
    { induction c as [|c IH]; intros lev' n' k'.
      - cbn [for_up]. unfold guard. destruct (Nat.eqb lev' (S l)); cbn [andb]; [|ring]. destruct (Nat.leb_spec d n'); cbn [andb]; [|ring]. destruct (Nat.ltb_spec n' (1 * d)); [lia|ring].
      - rewrite for_up_snoc. unfold body at 1. rewrite P.
        + rewrite IH. unfold guard. destruct (Nat.eqb lev' (S l)); cbn [andb]; [|ring]. cbn [Nat.add].
          destruct (Nat.leb_spec d n'); destruct (Nat.ltb_spec n' (S c * d)); destruct (Nat.leb_spec (S c * d) n'); destruct (Nat.ltb_spec n' (S c * d + d)); destruct (Nat.ltb_spec n' (S (S c) * d)); cbn [andb]; try lia; try ring.
          replace (n' / d)%nat with (S c) by (apply (Nat.div_unique n' d (S c) (n' - S c * d)); lia). replace (n' mod d)%nat with (n' - S c * d)%nat by (apply (Nat.mod_unique n' d (S c) (n' - S c * d)); lia). ring.
        + lia.
        + intros m k0. rewrite IH. unfold guard. destruct (Nat.eqb_spec l (S l)); [lia|]. cbn [andb]. ring. }
    rewrite G. replace (S (nb D (S l) - 1)) with (nb D (S l)) by (unfold nb, get_number_of_blocks; lia). reflexivity.
  Qed.
End Up.
