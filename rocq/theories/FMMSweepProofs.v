(** FMMSweepProofs.v -- one level of the upward sweep. *)
From Coq Require Import Reals List Arith Bool Lia Lra.
From Verif Require Import Base RPoly HelmholtzProofs Leg2ChebProofs Leg2ChebProofs2 FMMModel FMMSweepModel.
Import ListNotations.
Local Open Scope R_scope.

Fixpoint tr (n : nat) : nat := match n with O => 0 | S m => tr m + S m end%nat.
Lemma mv_ext m n A x y i : (forall j, (j < n)%nat -> x j = y j) -> mv m n A x i = mv m n A y i.
Proof. intros H. unfold mv. destruct (Nat.ltb i m); [|reflexivity]. apply rsum_ext. intros j Hj. rewrite H by exact Hj. reflexivity. Qed.
Lemma mv_T_ext m n A x y i : (forall j, (j < m)%nat -> x j = y j) -> mv_T m n A x i = mv_T m n A y i.
Proof. intros H. unfold mv_T. destruct (Nat.ltb i n); [|reflexivity]. apply rsum_ext. intros j Hj. rewrite H by exact Hj. reflexivity. Qed.
Lemma tri_ext m A x y i : (forall j, (j < m)%nat -> x j = y j) -> tri_lower m A x i = tri_lower m A y i.
Proof. intros H. unfold tri_lower. destruct (Nat.ltb_spec i m); [|reflexivity]. apply rsum_ext. intros j Hj. rewrite H by lia. reflexivity. Qed.
Section Level.
  Variables (D : list nat) (s diags : nat) (Mmin Nk : nat -> nat) (A : nat -> nat -> nat -> R).
  Variables (TT : nat -> nat -> R) (Th : nat -> nat -> nat -> nat -> R) (cia : nat -> R).
  Variable l : nat.
  Let d := dl D l.
  Let M0 := Mmin l.
  Hypothesis Hd : (0 < d)%nat.
  Hypothesis Hd1 : (0 < l)%nat -> (0 < dl D (l - 1))%nat.

  Lemma p_loop b q ik wk ck c : exists ck', for_up c 0 (sweep_p D Nk A l b q) (ik, wk, ck) = ((ik + c)%nat, wk, ck') /\
    forall lev n k, ck' lev n k = ck lev n k + guard (Nat.eqb lev l && Nat.leb (b * d) n && Nat.ltb n (b * d + c))
       (mv (Nk (ik + (n - b * d))%nat) (Nk (ik + (n - b * d))%nat) (A (ik + (n - b * d))%nat) (wk l (b * d + q)%nat) k).
  Proof.
    induction c as [|c IH].
    - exists ck. cbn [for_up]. split; [rewrite Nat.add_0_r; reflexivity|]. intros lev n k. unfold guard. destruct (Nat.eqb lev l); cbn [andb]; [|ring].
      destruct (Nat.leb_spec (b * d) n); cbn [andb]; [|ring]. destruct (Nat.ltb_spec n (b * d + 0)); [lia|ring].
    - destruct IH as (ck' & E & H). exists (badd ck' l (b * d + c) (mv (Nk (ik + c)%nat) (Nk (ik + c)%nat) (A (ik + c)%nat) (wk l (b * d + q)%nat))). split.
      + rewrite for_up_snoc, E. cbn [Nat.add]. unfold sweep_p. fold d. f_equal. f_equal. lia.
      + intros lev n k. unfold badd. rewrite H. unfold guard. destruct (Nat.eqb_spec lev l); cbn [andb]; [|ring].
        destruct (Nat.eqb_spec n (b * d + c)) as [->|Hn].
        * destruct (Nat.leb_spec (b * d) (b * d + c)); [|lia]. destruct (Nat.ltb_spec (b * d + c) (b * d + c)); [lia|]. destruct (Nat.ltb_spec (b * d + c) (b * d + S c)); [|lia]. cbn [andb].
          replace (b * d + c - b * d)%nat with c by lia. ring.
        * destruct (Nat.leb_spec (b * d) n); cbn [andb]; [|ring]. destruct (Nat.ltb_spec n (b * d + c)); destruct (Nat.ltb_spec n (b * d + S c)); try lia; ring.
  Qed.
  (** what the level reads: the values w *)
  Variable w : nat -> nat -> R.
  Variable wk0 : buf.
  Definition leaf (b q k : nat) : R := mv_T s M0 TT (fun i => cia (get_j0 l b s D diags + (q + 1) * s + i)%nat) k.
  Hypothesis Hw : forall b q k, (b < nb D l)%nat -> (q < d)%nat -> (k < M0)%nat ->
    w (b * d + q)%nat k = if Nat.eqb l (nL D - 1) then leaf b q k else wk0 l (b * d + q)%nat k.
  Variables (ik0 : nat) (ck0 : buf).
  Hypothesis HNk : forall b q p, (b < nb D l)%nat -> (q < d)%nat -> (p <= q)%nat -> (Nk (ik0 + b * tr d + tr q + p) <= M0)%nat.
  Definition term (ikb b c n k : nat) : R :=
    rsum c (fun q => guard (Nat.leb (n - b * d) q)
      (mv (Nk (ikb + tr q + (n - b * d))%nat) (Nk (ikb + tr q + (n - b * d))%nat) (A (ikb + tr q + (n - b * d))%nat) (w (b * d + q)%nat) k)).
  Definition lift (b c k : nat) : R := rsum c (fun q => tri_lower M0 (Th d q) (w (b * d + q)%nat) k).
  Record Qinv (b ikb : nat) (wkb ckb : buf) (c : nat) (st : nat * buf * buf) : Prop := {
    Qi : fst (fst st) = (ikb + tr c)%nat;
    Q1 : forall m k, (b * d + c <= m)%nat -> snd (fst st) l m k = wkb l m k;
    Q2 : (0 < l)%nat -> forall m k, snd (fst st) (l - 1)%nat m k = wkb (l - 1)%nat m k + guard (Nat.ltb 0 b && Nat.eqb (m + 1) b) (lift b c k);
    Q3 : forall lev m k, lev <> l -> (lev + 1 <> l)%nat -> snd (fst st) lev m k = wkb lev m k;
    Qc : forall lev n k, snd st lev n k = ckb lev n k + guard (Nat.eqb lev l && Nat.leb (b * d) n && Nat.ltb n (b * d + d)) (term ikb b c n k) }.
  Lemma guard_add b x y z : guard b (x + y) = guard b x + guard b y + z - z. Proof. unfold guard. destruct b; ring. Qed.
  Lemma q_loop b ikb wkb ckb c : (b < nb D l)%nat -> ikb = (ik0 + b * tr d)%nat -> (c <= d)%nat ->
    (forall m k, (b * d <= m)%nat -> wkb l m k = wk0 l m k) ->
    Qinv b ikb wkb ckb c (for_up c 0 (sweep_q D s diags Mmin Nk A TT Th cia l b) (ikb, wkb, ckb)).
  Proof.
    intros Hb Eik Hc H0. induction c as [|c IH].
    - cbn [for_up]. constructor; cbn [fst snd]; intros; try reflexivity.
      + cbn [tr]. lia.
      + unfold lift. cbn [gsum]. unfold guard. destruct (_ && _)%bool; ring.
      + unfold term. cbn [gsum]. unfold guard. destruct (_ && _)%bool; ring.
    - specialize (IH ltac:(lia)). rewrite for_up_snoc. cbn [Nat.add]. destruct (for_up c 0 _ _) as [[ik wk] ck]. destruct IH as [Ii I1 I2 I3 Ic]. cbn [fst snd] in *.
      unfold sweep_q. fold d M0.
      set (wk1 := if Nat.eqb l (nL D - 1) then _ else wk).
      assert (W1 : forall m k, m <> (b * d + c)%nat -> wk1 l m k = wk l m k).
      { intros m k Hm. unfold wk1. destruct (Nat.eqb l (nL D - 1)); [|reflexivity]. unfold bset. rewrite Nat.eqb_refl. destruct (Nat.eqb_spec m (b * d + c)); [contradiction|]. reflexivity. }
      assert (W1' : forall k, (k < M0)%nat -> wk1 l (b * d + c)%nat k = w (b * d + c)%nat k).
      { intros k Hk. rewrite Hw by lia. unfold wk1. destruct (Nat.eqb l (nL D - 1)).
        - unfold bset. rewrite !Nat.eqb_refl. destruct (Nat.ltb_spec k M0); [|lia]. reflexivity.
        - rewrite I1 by lia. apply H0. lia. }
      assert (W3 : forall lev m k, lev <> l -> wk1 lev m k = wk lev m k).
      { intros lev m k Hl. unfold wk1. destruct (Nat.eqb l (nL D - 1)); [|reflexivity]. unfold bset. destruct (Nat.eqb_spec lev l); [contradiction|]. reflexivity. }
      set (wk2 := if (Nat.ltb 0 l && Nat.ltb 0 b)%bool then _ else wk1).
      assert (X3 : forall lev m k, lev <> (l - 1)%nat \/ l = 0%nat -> wk2 lev m k = wk1 lev m k).
      { intros lev m k Hl. unfold wk2. destruct (Nat.ltb_spec 0 l); cbn [andb]; [|reflexivity]. destruct (Nat.ltb 0 b); [|reflexivity]. cbv zeta. unfold badd. destruct (Nat.eqb_spec lev (l - 1)); [lia|]. reflexivity. }
      assert (X2 : (0 < l)%nat -> forall m k, wk2 (l - 1)%nat m k = wk (l - 1)%nat m k + guard (Nat.ltb 0 b && Nat.eqb (m + 1) b) (tri_lower M0 (Th d c) (w (b * d + c)%nat) k)).
      { intros Hl m k. unfold wk2. destruct (Nat.ltb_spec 0 l); [|lia]. cbn [andb]. destruct (Nat.ltb_spec 0 b); cbn [andb].
        - cbv zeta. unfold badd. rewrite Nat.eqb_refl. cbn [andb]. rewrite W3 by lia.
          assert (E : ((b - 1) / dl D (l - 1) * dl D (l - 1) + (b - 1) mod dl D (l - 1) = b - 1)%nat) by (rewrite (Nat.mul_comm _ (dl D (l - 1))); symmetry; apply Nat.div_mod; specialize (Hd1 Hl); lia).
          rewrite E. unfold guard. destruct (Nat.eqb_spec m (b - 1)); destruct (Nat.eqb_spec (m + 1) b); try lia; [|ring].
          f_equal. apply tri_ext. intros j Hj. apply W1'. exact Hj.
        - rewrite W3 by lia. unfold guard. ring. }
      destruct (p_loop b c ik wk2 ck (c + 1)) as (ck' & E & HC). rewrite E.
      constructor; cbn [fst snd].
      + rewrite Ii. cbn [tr]. lia.
      + intros m k Hm. destruct (Nat.eq_dec l 0) as [El|Hl0]; rewrite X3 by lia; rewrite W1 by lia; apply I1; lia.
      + intros Hl m k. rewrite X2 by exact Hl. rewrite I2 by exact Hl. unfold lift. rewrite rsum_last. unfold guard. destruct (Nat.ltb 0 b && Nat.eqb (m + 1) b)%bool; ring.
      + intros lev m k H1 H2. rewrite X3 by lia. rewrite W3 by exact H1. apply I3; assumption.
      + intros lev n k. rewrite HC, Ic. unfold term. rewrite rsum_last. set (X := rsum c _). unfold guard. destruct (Nat.eqb lev l); cbn [andb]; [|ring].
        destruct (Nat.leb_spec (b * d) n); cbn [andb]; [|ring].
        destruct (Nat.ltb_spec n (b * d + d)); destruct (Nat.ltb_spec n (b * d + (c + 1))); destruct (Nat.leb_spec (n - b * d) c); try lia; try ring.
        rewrite Rplus_assoc. f_equal. f_equal. rewrite Ii.
        apply mv_ext. intros j Hj. assert (Hj2 : (j < M0)%nat) by (eapply Nat.lt_le_trans; [exact Hj|]; rewrite Eik; apply HNk; lia).
        destruct (Nat.eq_dec l 0) as [El|El]; rewrite X3 by lia; apply W1'; exact Hj2.
  Qed.
  Definition own (n k : nat) : R := term (ik0 + n / d * tr d) (n / d) d n k.
  Record Binv (c : nat) (st : nat * buf * buf) : Prop := {
    Bi : fst (fst st) = (ik0 + c * tr d)%nat;
    B1 : forall m k, (c * d <= m)%nat -> snd (fst st) l m k = wk0 l m k;
    B2 : (0 < l)%nat -> forall m k, snd (fst st) (l - 1)%nat m k = wk0 (l - 1)%nat m k + guard (Nat.ltb (m + 1) c) (lift (m + 1) d k);
    B3 : forall lev m k, lev <> l -> (lev + 1 <> l)%nat -> snd (fst st) lev m k = wk0 lev m k;
    Bc : forall lev n k, snd st lev n k = ck0 lev n k + guard (Nat.eqb lev l && Nat.ltb n (c * d)) (own n k) }.
  Lemma level_step : Binv (nb D l) (sweep_level D s diags Mmin Nk A TT Th cia l (ik0, wk0, ck0)).
  Proof.
    unfold sweep_level. fold d. assert (G : forall c, (c <= nb D l)%nat -> Binv c (for_up c 0 (fun b st => for_up d 0 (sweep_q D s diags Mmin Nk A TT Th cia l b) st) (ik0, wk0, ck0))).
    2:{ apply G. lia. }
    induction c as [|c IH]; intros Hc.
    - cbn [for_up]. constructor; cbn [fst snd]; intros; try reflexivity.
      + lia.
      + unfold guard. destruct (Nat.ltb_spec (m + 1) 0); [lia|ring].
      + unfold guard. rewrite andb_comm. cbn [Nat.mul]. destruct (Nat.ltb_spec n 0); [lia|]. cbn [andb]. ring.
    - specialize (IH ltac:(lia)). rewrite for_up_snoc. cbn [Nat.add]. destruct (for_up c 0 _ _) as [[ik wk] ck]. destruct IH as [Ii I1 I2 I3 Ic]. cbn [fst snd] in *.
      pose proof (q_loop c ik wk ck d ltac:(lia) Ii (le_n d) I1) as Q. destruct (for_up d 0 _ _) as [[ik' wk'] ck']. destruct Q as [Qi Q1 Q2 Q3 Qc]. cbn [fst snd] in *.
      constructor; cbn [fst snd].
      + rewrite Qi, Ii. lia.
      + intros m k Hm. rewrite Q1 by lia. apply I1. lia.
      + intros Hl m k. rewrite Q2, I2 by exact Hl. unfold guard. destruct (Nat.ltb_spec 0 c); destruct (Nat.eqb_spec (m + 1) c); destruct (Nat.ltb_spec (m + 1) c); destruct (Nat.ltb_spec (m + 1) (S c)); cbn [andb]; try lia; try ring.
        subst c. ring.
      + intros lev m k H1 H2. rewrite Q3 by assumption. apply I3; assumption.
      + intros lev n k. rewrite Qc, Ic. unfold guard. destruct (Nat.eqb lev l); cbn [andb]; [|ring].
        destruct (Nat.ltb_spec n (c * d)); destruct (Nat.leb_spec (c * d) n); destruct (Nat.ltb_spec n (c * d + d)); destruct (Nat.ltb_spec n (S c * d)); cbn [andb]; try lia; try ring.
        unfold own. replace (n / d)%nat with c by (apply (Nat.div_unique n d c (n - c * d)); lia). rewrite Ii. ring.
  Qed.
End Level.
