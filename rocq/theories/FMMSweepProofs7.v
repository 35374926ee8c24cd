(** FMMSweepProofs7.v -- the transposed sweeps compute the product with the transposed low rank submatrices. *)
From Coq Require Import Reals List Arith Bool Lia Lra.
From Verif Require Import Base RPoly HelmholtzProofs StencilProofs8 Leg2ChebProofs Leg2ChebProofs2 Leg2ChebProofs3 FMMModel FMMProofs FMMSweepModel FMMSweepSpec FMMSweepProofs FMMSweepProofs2 FMMSweepProofs3 FMMSweepProofs4 FMMSweepProofs6.
Import ListNotations.
Local Open Scope R_scope.

Section Down.
  Variables (D : list nat) (s diags : nat).
  Hypothesis HD : Forall (fun d => (0 < d)%nat) D.
  Hypothesis Hs : (0 < s)%nat.
  Variables (Mmin : nat -> nat) (TT : nat -> nat -> R) (Th : nat -> nat -> nat -> nat -> R) (Phi : nat -> nat -> nat -> R).
  Let L := nL D.
  Hypothesis HL : (0 < L)%nat.
  Hypothesis HTT : forall x k, (x < s)%nat -> (k < Mmin (L - 1))%nat -> TT x k = Phi s x k.
  Hypothesis HTh : forall l q x k, (S l < L)%nat -> (q < dl D (S l))%nat -> (x < hh D s (S l))%nat -> (k < Mmin l)%nat ->
    Phi (hh D s l) (q * hh D s (S l) + x)%nat k = rsum (k + 1) (fun j => Th (dl D (S l)) q k j * Phi (hh D s (S l)) x j).
  Hypothesis Hmono : forall l, (S l < L)%nat -> (Mmin l <= Mmin (S l))%nat.
  Variable ck0 : buf.
  Fixpoint cfinT (l n k : nat) : R :=
    match l with
    | O => ck0 0%nat n k
    | S l' => ck0 (S l') n k + guard (Nat.leb (dl D (S l')) n && Nat.ltb n (nb D (S l') * dl D (S l')))
        (tri_upper (Mmin l') (Mmin l') (fun i j => Th (dl D (S l')) (n mod dl D (S l'))%nat j i) (cfinT l' (n / dl D (S l') - 1)%nat) k)
    end.
  Lemma downT_all c lev n k : (c <= L - 1)%nat -> for_up c 0 (downT_level D Mmin Th) ck0 lev n k = if Nat.leb lev c then cfinT lev n k else ck0 lev n k.
  Proof.
    revert lev n k. induction c as [|c IH]; intros lev n k Hc.
    - cbn [for_up]. destruct lev; reflexivity.
    - rewrite for_up_snoc. cbn [Nat.add]. rewrite (downT_step D s HD Hs Mmin Th HL) by (fold L; lia). rewrite IH by lia. unfold guard. destruct (Nat.eqb_spec lev (S c)) as [->|Hne]; cbn [andb].
      + destruct (Nat.leb_spec (S c) c); [lia|]. rewrite Nat.leb_refl. cbn [cfinT]. unfold guard. destruct (_ && _)%bool; [|reflexivity]. f_equal.
        apply tri_upper_ext. intros j. rewrite IH by lia. destruct (Nat.leb_spec c c); [reflexivity|lia].
      + rewrite Rplus_0_r. destruct (Nat.leb_spec lev c); destruct (Nat.leb_spec lev (S c)); try lia; reflexivity.
  Qed.
  (** first column of level l, and what level l adds to column j *)
  Let c0 (l : nat) := col D s diags l 0.
  Definition at_levelT (l j : nat) : R := guard (Nat.leb (col D s diags l 0) j && Nat.ltb j (col D s diags l 0 + nb D l * dl D l * hh D s l))
    (rsum (Mmin l) (fun k => Phi (hh D s l) ((j - col D s diags l 0) mod hh D s l)%nat k * ck0 l ((j - col D s diags l 0) / hh D s l)%nat k)).
  Hypothesis Hck : forall l n k, (Mmin l <= k)%nat -> ck0 l n k = 0.
  Lemma col_n l n : col D s diags l n = (c0 l + n * hh D s l)%nat. Proof. unfold c0, col. lia. Qed.
  Lemma c0_step l : (S l < L)%nat -> c0 l = (c0 (S l) + dl D (S l) * hh D s (S l))%nat.
  Proof. intros Hl. unfold c0. pose proof (col_child D s diags Hs l 0 0 Hl) as E. replace ((0 + 1) * dl D (S l) + 0)%nat with (dl D (S l)) in E by lia. rewrite col_n in E. unfold c0 in E. lia. Qed.
  Lemma end_step l : (S l < L)%nat -> (c0 l + nb D l * dl D l * hh D s l = c0 (S l) + nb D (S l) * dl D (S l) * hh D s (S l))%nat.
  Proof.
    intros Hl. rewrite (c0_step l Hl). rewrite (nb_step D s Hs) by (fold L; lia). rewrite (hh_step D s Hs l) by exact Hl. generalize (nb D l * dl D l)%nat (dl D (S l)) (hh D s (S l)) (c0 (S l)). intros a b c e. nia.
  Qed.
  Lemma c0_mono l l' : (l' <= l)%nat -> (l < L)%nat -> (c0 l <= c0 l')%nat.
  Proof. intros H Hl. induction H as [|m Hm IH]; [lia|]. specialize (IH ltac:(lia)). pose proof (c0_step m Hl). lia. Qed.
  Lemma end_eq l l' : (l' <= l)%nat -> (l < L)%nat -> (c0 l' + nb D l' * dl D l' * hh D s l' = c0 l + nb D l * dl D l * hh D s l)%nat.
  Proof. intros H Hl. induction H as [|m Hm IH]; [lia|]. specialize (IH ltac:(lia)). pose proof (end_step m Hl). lia. Qed.
  Lemma outside l j : (l < L)%nat -> (j < c0 l \/ c0 l + nb D l * dl D l * hh D s l <= j)%nat -> rsum (S l) (fun l' => at_levelT l' j) = 0.
  Proof.
    intros Hl Hj. apply rsum_zero. intros l' Hl'. unfold at_levelT, guard. fold (c0 l'). pose proof (c0_mono l l' ltac:(lia) Hl). pose proof (end_eq l l' ltac:(lia) Hl).
    destruct (Nat.leb_spec (c0 l') j); cbn [andb]; [|reflexivity]. destruct (Nat.ltb_spec j (c0 l' + nb D l' * dl D l' * hh D s l')); [lia|reflexivity].
  Qed.
  Lemma valT l n x : (l < L)%nat -> (n < nb D l * dl D l)%nat -> (x < hh D s l)%nat ->
    rsum (Mmin l) (fun k => Phi (hh D s l) x k * cfinT l n k) = rsum (S l) (fun l' => at_levelT l' (c0 l + n * hh D s l + x)%nat).
  Proof.
    assert (OWN : forall l n x, (n < nb D l * dl D l)%nat -> (x < hh D s l)%nat -> at_levelT l (c0 l + n * hh D s l + x) = rsum (Mmin l) (fun k => Phi (hh D s l) x k * ck0 l n k)).
    { intros l0 n0 x0 Hn Hx. unfold at_levelT. fold (c0 l0). set (h := hh D s l0) in *. replace (c0 l0 + n0 * h + x0 - c0 l0)%nat with (n0 * h + x0)%nat by lia.
      replace ((n0 * h + x0) mod h)%nat with x0 by (apply (Nat.mod_unique _ h n0 x0); lia). replace ((n0 * h + x0) / h)%nat with n0 by (apply (Nat.div_unique _ h n0 x0); lia).
      unfold guard. destruct (Nat.leb_spec (c0 l0) (c0 l0 + n0 * h + x0)); [|lia]. destruct (Nat.ltb_spec (c0 l0 + n0 * h + x0) (c0 l0 + nb D l0 * dl D l0 * h)); [reflexivity|nia]. }
    revert n x. induction l as [|l IH]; intros n x Hl Hn Hx.
    - rewrite rsum_last. cbn [gsum]. rewrite OWN by assumption. cbn [cfinT]. ring.
    - rewrite rsum_last, OWN by assumption.
      set (d := dl D (S l)) in *. set (h := hh D s (S l)) in *.
      assert (Hd : (0 < d)%nat) by (apply (dl_pos D HD); exact Hl). assert (Hh : (0 < h)%nat) by (apply hh_pos; assumption).
      assert (Eh : hh D s l = (d * h)%nat) by (apply (hh_step D s Hs); exact Hl).
      assert (EN : (nb D (S l) = 1 + nb D l * dl D l)%nat) by (apply (nb_step D s Hs); fold L; lia).
      rewrite (rsum_ext _ _ (fun k => Phi h x k * ck0 (S l) n k + Phi h x k * guard (Nat.leb d n && Nat.ltb n (nb D (S l) * d)) (tri_upper (Mmin l) (Mmin l) (fun i j => Th d (n mod d)%nat j i) (cfinT l (n / d - 1)%nat) k))).
      2:{ intros k Hk. cbn [cfinT]. fold d h. ring. }
      rewrite rsum_add, Rplus_comm. f_equal.
      destruct (Nat.ltb_spec n (nb D (S l) * d)) as [_|]; [|lia]. rewrite andb_true_r.
      pose proof (c0_step l Hl) as EC. fold d h in EC.
      destruct (Nat.leb_spec d n) as [Hdn|Hdn].
      + cbn [guard]. pose proof (Nat.div_mod n d ltac:(lia)) as E2. pose proof (Nat.mod_upper_bound n d ltac:(lia)) as M2. set (q := (n mod d)%nat) in *.
        assert (H1 : (1 <= n / d)%nat) by (apply (Nat.div_le_lower_bound n d 1); lia). set (m := (n / d - 1)%nat). assert (Em : (n / d = m + 1)%nat) by (unfold m; lia). rewrite Em in E2.
        assert (Hm : (m < nb D l * dl D l)%nat) by nia. assert (Hx2 : (q * h + x < hh D s l)%nat) by (rewrite Eh; nia).
        replace (c0 (S l) + n * h + x)%nat with (c0 l + m * hh D s l + (q * h + x))%nat by (rewrite Eh; nia). rewrite <- (IH m (q * h + x)%nat ltac:(lia) Hm Hx2).
        transitivity (rsum (Mmin l) (fun k => rsum (Mmin l - k) (fun j => Phi h x k * (Th d q (k + j)%nat k * cfinT l m (k + j)%nat)))).
        * rewrite (rsum_more (Mmin l) (Mmin (S l))).
          -- apply rsum_ext. intros k Hk. unfold tri_upper. destruct (Nat.ltb_spec k (Mmin l)); [|lia]. rewrite <- rsum_scal. reflexivity.
          -- apply Hmono. exact Hl.
          -- intros k Hk. unfold tri_upper. destruct (Nat.ltb_spec k (Mmin l)); [lia|ring].
        * rewrite (rsum_tri (Mmin l) (fun k j => Phi h x k * (Th d q j k * cfinT l m j))). apply rsum_ext. intros j Hj.
          unfold h. rewrite HTh by (fold L || exact M2 || exact Hx || lia). fold h d. rewrite Rmult_comm, <- rsum_scal. apply rsum_ext. intros k Hk. ring.
      + cbn [guard]. rewrite outside by (lia || (left; nia)). apply rsum_zero. intros k Hk. ring.
  Qed.
  Lemma outT_val ck j : (forall n k, ck (L - 1)%nat n k = cfinT (L - 1) n k) ->
    outT_level D s diags Mmin TT ck j = rsum L (fun l => at_levelT l j).
  Proof.
    intros Hc. unfold outT_level. fold L. set (d := dl D (L - 1)). pose proof (hh_last D s Hs HL) as Eh. fold L in Eh.
    assert (Hd : (0 < d)%nat) by (apply (dl_pos D HD); fold L; lia). set (C := c0 (L - 1)).
    set (row := fun n => rsum (Mmin (L - 1)) (fun k => Phi s ((j - C) mod s)%nat k * cfinT (L - 1) n k)).
    pose proof (Nat.div_mod (j - C) s ltac:(lia)) as E1. pose proof (Nat.mod_upper_bound (j - C) s ltac:(lia)) as M1.
    assert (G : forall c, (c <= nb D (L - 1))%nat -> for_up c 0 (fun b coa => for_up d 0 (fun p coa i => if (Nat.leb (get_j0 (L - 1) b s D diags + (p + 1) * s) i && Nat.ltb i (get_j0 (L - 1) b s D diags + (p + 1) * s + s))%bool
        then coa i + mv s (Mmin (L - 1)) TT (ck (L - 1)%nat (b * d + p)%nat) (i - (get_j0 (L - 1) b s D diags + (p + 1) * s)) else coa i) coa) (fun _ => 0) j = guard (Nat.leb C j && Nat.ltb ((j - C) / s) (c * d)) (row ((j - C) / s)%nat)).
    { induction c as [|c IH]; intros Hcb; [cbn [for_up]; unfold guard; rewrite andb_false_r; reflexivity|]. rewrite for_up_snoc. cbn [Nat.add]. specialize (IH ltac:(lia)). set (coa := for_up c 0 _ _) in *.
      assert (P : forall e, (e <= d)%nat -> for_up e 0 (fun p coa i => if (Nat.leb (get_j0 (L - 1) c s D diags + (p + 1) * s) i && Nat.ltb i (get_j0 (L - 1) c s D diags + (p + 1) * s + s))%bool
        then coa i + mv s (Mmin (L - 1)) TT (ck (L - 1)%nat (c * d + p)%nat) (i - (get_j0 (L - 1) c s D diags + (p + 1) * s)) else coa i) coa j = guard (Nat.leb C j && Nat.ltb ((j - C) / s) (c * d + e)) (row ((j - C) / s)%nat)).
      { induction e as [|e IHe]; intros He; [rewrite Nat.add_0_r; exact IH|]. rewrite for_up_snoc. cbn [Nat.add]. rewrite IHe by lia. clear IHe.
        pose proof (j0_col D s diags Hs (L - 1) c e) as ER. rewrite Eh, col_n, Eh in ER. fold d C in ER. rewrite ER. unfold guard.
        destruct (Nat.leb_spec C j); cbn [andb]; [|destruct (Nat.leb_spec (C + (c * d + e) * s) j); [lia|reflexivity]].
        destruct (Nat.leb_spec (C + (c * d + e) * s) j); destruct (Nat.ltb_spec j (C + (c * d + e) * s + s)); destruct (Nat.ltb_spec ((j - C) / s) (c * d + e)); destruct (Nat.ltb_spec ((j - C) / s) (c * d + S e)); cbn [andb]; try nia; try reflexivity.
        assert (EQ : ((j - C) / s = c * d + e)%nat) by nia. unfold mv, row. rewrite EQ in *. replace (j - (C + (c * d + e) * s))%nat with ((j - C) mod s)%nat by nia. destruct (Nat.ltb_spec ((j - C) mod s) s); [|lia].
        rewrite Rplus_0_l. apply rsum_ext. intros k Hk. rewrite HTT by lia. rewrite Hc. reflexivity. }
      rewrite P by lia. replace (c * d + d)%nat with (S c * d)%nat by lia. reflexivity. }
    cbv zeta. rewrite G by lia. unfold guard. destruct (Nat.leb_spec C j) as [HC|HC]; cbn [andb].
    - destruct (Nat.ltb_spec ((j - C) / s) (nb D (L - 1) * d)) as [Hi|Hi].
      + unfold row. rewrite <- Eh in M1 |- *. pose proof (valT (L - 1) ((j - C) / hh D s (L - 1)) ((j - C) mod hh D s (L - 1)) ltac:(lia)) as V. fold d C in V.
        rewrite V by (rewrite Eh in *; assumption). replace (S (L - 1)) with L by lia. apply rsum_ext. intros l Hl. f_equal. rewrite Eh. lia.
      + symmetry. replace L with (S (L - 1)) at 1 by lia. apply outside; [lia|]. right. fold C d. rewrite Eh. nia.
    - symmetry. replace L with (S (L - 1)) at 1 by lia. apply outside; [lia|]. left. exact HC.
  Qed.
End Down.
(** one column: the pieces that contain it *)
Lemma pick_col nbl d n (g : nat -> nat -> nat -> R) : (0 < d)%nat ->
  rsum nbl (fun b => rsum d (fun q => rsum (q + 1) (fun p => guard (Nat.eqb n (b * d + q)) (g b q p)))) = guard (Nat.ltb n (nbl * d)) (rsum (n mod d + 1) (fun p => g (n / d)%nat (n mod d)%nat p)).
Proof.
  intros Hd. pose proof (Nat.div_mod n d ltac:(lia)) as E. pose proof (Nat.mod_upper_bound n d ltac:(lia)) as M.
  assert (Z : forall b q, (q < d)%nat -> n = (b * d + q)%nat -> b = (n / d)%nat /\ q = (n mod d)%nat).
  { intros b q Hq En. split; [apply (Nat.div_unique n d b q); lia|apply (Nat.mod_unique n d b q); lia]. }
  unfold guard at 2. destruct (Nat.ltb_spec n (nbl * d)) as [H|H].
  - rewrite (rsum_at nbl (n / d)).
    + rewrite (rsum_at d (n mod d)); [|lia|].
      * apply rsum_ext. intros p Hp. unfold guard. destruct (Nat.eqb_spec n (n / d * d + n mod d)); [reflexivity|lia].
      * intros q Hq Hne. apply rsum_zero. intros p Hp. unfold guard. destruct (Nat.eqb_spec n (n / d * d + q)) as [En|]; [|reflexivity]. destruct (Z _ _ Hq En); contradiction.
    + apply Nat.div_lt_upper_bound; lia.
    + intros b _ Hne. apply rsum_zero. intros q Hq. apply rsum_zero. intros p Hp. unfold guard. destruct (Nat.eqb_spec n (b * d + q)) as [En|]; [|reflexivity]. destruct (Z _ _ Hq En); contradiction.
  - apply rsum_zero. intros b Hb. apply rsum_zero. intros q Hq. apply rsum_zero. intros p Hp. unfold guard. destruct (Nat.eqb_spec n (b * d + q)) as [En|]; [|reflexivity]. nia.
Qed.
Section Sweep.
  Variables (D : list nat) (s diags : nat).
  Hypothesis HD : Forall (fun d => (0 < d)%nat) D.
  Hypothesis Hs : (0 < s)%nat.
  Variables (Mmin Nk : nat -> nat) (A : nat -> nat -> nat -> R).
  Variables (TT : nat -> nat -> R) (Th : nat -> nat -> nat -> nat -> R) (cia : nat -> R) (Phi : nat -> nat -> nat -> R).
  Let L := nL D.
  Hypothesis HL : (0 < L)%nat.
  Hypothesis HTT : forall x k, (x < s)%nat -> (k < Mmin (L - 1))%nat -> TT x k = Phi s x k.
  Hypothesis HTh : forall l q x k, (S l < L)%nat -> (q < dl D (S l))%nat -> (x < hh D s (S l))%nat -> (k < Mmin l)%nat ->
    Phi (hh D s l) (q * hh D s (S l) + x)%nat k = rsum (k + 1) (fun j => Th (dl D (S l)) q k j * Phi (hh D s (S l)) x j).
  Hypothesis Hmono : forall l, (S l < L)%nat -> (Mmin l <= Mmin (S l))%nat.
  Hypothesis HNk : forall l b q p, (l < L)%nat -> (b < nb D l)%nat -> (q < dl D l)%nat -> (p <= q)%nat -> (Nk (off D (S l) + b * tr (dl D l) + tr q + p) <= Mmin l)%nat.
  Let LRw := LR Nk A Phi.
  Lemma LRT_sum ik h y n l : h = hh D s l ->
    rsum h (fun x => LRw ik h x y * cia (n * h + x)%nat) = rsum (Nk ik) (fun k => Phi h y k * mv_T (Nk ik) (Nk ik) (A ik) (WT D s cia Phi l n) k).
  Proof.
    intros ->. set (h := hh D s l). unfold LRw, LR.
    rewrite (rsum_ext h _ (fun x => rsum (Nk ik) (fun j => rsum (Nk ik) (fun k => A ik k j * Phi h x k * Phi h y j * cia (n * h + x)%nat)))).
    2:{ intros x Hx. rewrite gsum_swap, Rmult_comm, <- rsum_scal. apply rsum_ext. intros k Hk. rewrite <- rsum_scal. apply rsum_ext. intros j Hj. ring. }
    rewrite gsum_swap. apply rsum_ext. intros j Hj. unfold mv_T. destruct (Nat.ltb_spec j (Nk ik)); [|lia]. rewrite <- rsum_scal, gsum_swap. apply rsum_ext. intros k Hk. unfold WT. fold h.
    rewrite (Rmult_comm (rsum h _) (A ik k j)). rewrite <- rsum_scal, <- rsum_scal. apply rsum_ext. intros x Hx. ring.
  Qed.
  Lemma sweepT_product j : sweepT D s diags Mmin Nk A TT Th cia j = product_T LRw (submatrices D s diags) cia j.
  Proof.
    unfold sweepT. fold L. pose proof (upT_sweep D s HD Hs Mmin Nk A TT Th cia Phi HL HTT HTh Hmono HNk) as U. fold L in U.
    destruct (for_down L _ _) as [[ik wk] ck]. destruct U as [_ _ _ Uc]. cbn [snd] in Uc. fold L in Uc.
    rewrite (outT_val D s diags HD Hs Mmin TT Th Phi HL HTT HTh Hmono ck _ j).
    2:{ intros n k. rewrite (downT_all D s HD Hs Mmin Th HL ck) by (fold L; lia). fold L. rewrite Nat.leb_refl. reflexivity. }
    unfold product_T. rewrite (ns_all D s diags Hs). fold L. apply rsum_ext. intros l Hl. assert (Hd : (0 < dl D l)%nat) by (apply (dl_pos D HD); exact Hl).
    set (h := hh D s l). assert (Hh : (0 < h)%nat) by (apply hh_pos; assumption). set (d := dl D l) in *. set (C := col D s diags l 0).
    assert (EC : forall n, col D s diags l n = (C + n * h)%nat) by (intros n; unfold C, col; fold h; lia).
    unfold at_levelT. fold C h d. destruct (Nat.leb_spec C j) as [HC|HC]; cbn [andb].
    2:{ cbn [guard]. symmetry. apply rsum_zero. intros b Hb. apply rsum_zero. intros q Hq. apply rsum_zero. intros p Hp. rewrite EC. destruct (Nat.leb_spec (C + (b * d + q) * h) j); [lia|reflexivity]. }
    pose proof (Nat.div_mod (j - C) h ltac:(lia)) as E1. pose proof (Nat.mod_upper_bound (j - C) h ltac:(lia)) as M1. set (n := ((j - C) / h)%nat) in *. set (y := ((j - C) mod h)%nat) in *.
    transitivity (rsum (nb D l) (fun b => rsum d (fun q => rsum (q + 1) (fun p => guard (Nat.eqb n (b * d + q))
       (rsum h (fun x => LRw (off D (S l) + b * tr d + tr q + p)%nat h x y * cia ((b * d + p) * h + x)%nat)))))).
    2:{ apply rsum_ext. intros b Hb. apply rsum_ext. intros q Hq. apply rsum_ext. intros p Hp. rewrite EC. unfold guard.
        destruct (Nat.eqb_spec n (b * d + q)) as [En|En].
        - destruct (Nat.leb_spec (C + (b * d + q) * h) j); [|nia]. destruct (Nat.ltb_spec j (C + (b * d + q) * h + h)); [|nia]. cbn [andb]. replace (j - (C + (b * d + q) * h))%nat with y by nia. reflexivity.
        - destruct (Nat.leb_spec (C + (b * d + q) * h) j); [|reflexivity]. destruct (Nat.ltb_spec j (C + (b * d + q) * h + h)); [|reflexivity]. exfalso. apply En. symmetry. apply (Nat.div_unique (j - C) h (b * d + q) (j - (C + (b * d + q) * h))); lia. }
    rewrite (pick_col (nb D l) d n (fun b q p => rsum h (fun x => LRw (off D (S l) + b * tr d + tr q + p)%nat h x y * cia ((b * d + p) * h + x)%nat)) Hd).
    unfold guard. destruct (Nat.ltb_spec j (C + nb D l * d * h)) as [Hi|Hi]; destruct (Nat.ltb_spec n (nb D l * d)) as [Hn|Hn]; try nia; [|reflexivity].
    pose proof (Nat.div_mod n d ltac:(lia)) as E2. pose proof (Nat.mod_upper_bound n d ltac:(lia)) as M2. assert (Hnb : (n / d < nb D l)%nat) by (apply Nat.div_lt_upper_bound; lia).
    rewrite (rsum_ext (Mmin l) _ (fun k => rsum (n mod d + 1) (fun q => Phi h y k * mv_T (Nk (off D (S l) + n / d * tr d + tr (n mod d) + q)%nat) (Nk (off D (S l) + n / d * tr d + tr (n mod d) + q)%nat)
       (A (off D (S l) + n / d * tr d + tr (n mod d) + q)%nat) (WT D s cia Phi l (n / d * d + q)%nat) k))).
    2:{ intros k Hk. rewrite Uc. unfold guard at 1. destruct (Nat.ltb_spec l L); [|lia]. cbn [Nat.leb andb]. fold d. destruct (Nat.ltb_spec n (nb D l * d)); [|lia]. unfold ownWT, ownT, termT. fold d.
        replace (n - n / d * d)%nat with (n mod d)%nat by lia. rewrite <- rsum_scal. reflexivity. }
    rewrite gsum_swap. apply rsum_ext. intros q Hq.
    rewrite (LRT_sum _ h y _ l eq_refl). apply rsum_more; [apply HNk; lia|]. intros k Hk. unfold mv_T. destruct (Nat.ltb_spec k (Nk (off D (S l) + n / d * tr d + tr (n mod d) + q)%nat)); [lia|ring].
  Qed.
End Sweep.
