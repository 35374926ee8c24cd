(** FMMSweepProofs3.v -- the downward sweep gathers the contributions of all levels. *)
From Coq Require Import Reals List Arith Bool Lia Lra.
From Verif Require Import Base RPoly HelmholtzProofs StencilProofs8 Leg2ChebProofs Leg2ChebProofs2 Leg2ChebProofs3 FMMModel FMMProofs FMMSweepModel FMMSweepProofs FMMSweepProofs2.
Import ListNotations.
Local Open Scope R_scope.

Lemma tri_upper_ext m n A x y i : (forall j, x j = y j) -> tri_upper m n A x i = tri_upper m n A y i.
Proof. intros H. unfold tri_upper. destruct (Nat.ltb i m); [|reflexivity]. apply rsum_ext. intros j Hj. rewrite H. reflexivity. Qed.
(** a triangular double sum *)
Lemma rsum_tri n (f : nat -> nat -> R) : rsum n (fun i => rsum (n - i) (fun j => f i (i + j)%nat)) = rsum n (fun j => rsum (j + 1) (fun i => f i j)).
Proof.
  induction n as [|n IH]; [reflexivity|]. rewrite !rsum_last, <- IH.
  rewrite (rsum_ext n _ (fun i => rsum (n - i) (fun j => f i (i + j)%nat) + f i n)).
  - rewrite rsum_add. replace (S n - n)%nat with 1%nat by lia. rewrite Nat.add_1_r, (rsum_last n). cbn [gsum]. rewrite Nat.add_0_r. ring.
  - intros i Hi. replace (S n - i)%nat with (S (n - i)) by lia. rewrite rsum_last. replace (i + (n - i))%nat with n by lia. reflexivity.
Qed.
Section Down.
  Variables (D : list nat) (s : nat).
  Hypothesis HD : Forall (fun d => (0 < d)%nat) D.
  Hypothesis Hs : (0 < s)%nat.
  Variables (Mmin : nat -> nat) (TT : nat -> nat -> R) (Th : nat -> nat -> nat -> nat -> R) (Phi : nat -> nat -> nat -> R).
  Let L := nL D.
  Hypothesis HL : (0 < L)%nat.
  Hypothesis HTT : forall x k, (x < s)%nat -> (k < Mmin (L - 1))%nat -> TT x k = Phi s x k.
  Hypothesis HTh : forall l q x k, (S l < L)%nat -> (q < dl D (S l))%nat -> (x < hh D s (S l))%nat -> (k < Mmin l)%nat ->
    Phi (hh D s l) (q * hh D s (S l) + x)%nat k = rsum (k + 1) (fun j => Th (dl D (S l)) q k j * Phi (hh D s (S l)) x j).
  Hypothesis Hmono : forall l, (S l < L)%nat -> (Mmin l <= Mmin (S l))%nat.
  Variable ck0 : buf.
  Fixpoint cfin (l n k : nat) : R :=
    match l with
    | O => ck0 0%nat n k
    | S l' => ck0 (S l') n k + guard (Nat.ltb n ((nb D (S l') - 1) * dl D (S l')))
        (tri_upper (Mmin l') (Mmin l') (fun i j => Th (dl D (S l')) (n mod dl D (S l'))%nat j i) (cfin l' (n / dl D (S l'))%nat) k)
    end.
  Lemma down_all c lev n k : (c <= L - 1)%nat -> for_up c 0 (down_level D Mmin Th) ck0 lev n k = if Nat.leb lev c then cfin lev n k else ck0 lev n k.
  Proof.
    revert lev n k. induction c as [|c IH]; intros lev n k Hc.
    - cbn [for_up]. destruct lev; [reflexivity|]. reflexivity.
    - rewrite for_up_snoc. cbn [Nat.add]. rewrite (down_step D s HD Hs Mmin Th HL) by (fold L; lia). rewrite IH by lia. unfold guard. destruct (Nat.eqb_spec lev (S c)) as [->|Hne]; cbn [andb].
      + destruct (Nat.leb_spec (S c) c); [lia|]. rewrite Nat.leb_refl. cbn [cfin]. unfold guard. destruct (Nat.ltb n _); [|reflexivity]. f_equal.
        apply tri_upper_ext. intros j. rewrite IH by lia. destruct (Nat.leb_spec c c); [reflexivity|lia].
      + rewrite Rplus_0_r. destruct (Nat.leb_spec lev c); destruct (Nat.leb_spec lev (S c)); try lia; reflexivity.
  Qed.
  (** what level l adds to row i *)
  Definition at_level (l i : nat) : R := guard (Nat.ltb i (nb D l * dl D l * hh D s l)) (rsum (Mmin l) (fun k => Phi (hh D s l) (i mod hh D s l)%nat k * ck0 l (i / hh D s l)%nat k)).
  Hypothesis Hck : forall l n k, (Mmin l <= k)%nat -> ck0 l n k = 0.
  Lemma cfin_high l n k : (l < L)%nat -> (Mmin l <= k)%nat -> cfin l n k = 0.
  Proof.
    intros Hl Hk. destruct l as [|l]; cbn [cfin]; [apply Hck; exact Hk|]. rewrite Hck by exact Hk. unfold guard. destruct (Nat.ltb n _); [|ring]. unfold tri_upper.
    destruct (Nat.ltb_spec k (Mmin l)); [specialize (Hmono l Hl); lia|ring].
  Qed.
  Lemma bound_step l : (S l < L)%nat -> (nb D l * dl D l * hh D s l <= nb D (S l) * dl D (S l) * hh D s (S l))%nat.
  Proof. intros Hl. rewrite (nb_step D s Hs) by (fold L; lia). rewrite (hh_step D s Hs l) by exact Hl. generalize (nb D l * dl D l)%nat (dl D (S l)) (hh D s (S l)). intros a b c. nia. Qed.
  Lemma below l i : (l < L)%nat -> (nb D l * dl D l * hh D s l <= i)%nat -> rsum (S l) (fun l' => at_level l' i) = 0.
  Proof.
    intros Hl Hi. apply rsum_zero. intros l' Hl'. unfold at_level, guard. destruct (Nat.ltb_spec i (nb D l' * dl D l' * hh D s l')) as [X|]; [exfalso|reflexivity].
    assert (nb D l' * dl D l' * hh D s l' <= nb D l * dl D l * hh D s l)%nat; [|lia]. assert (Hll : (l' <= l)%nat) by lia.  induction Hll as [|m Hm IH]; [lia|]. specialize (IH ltac:(lia)). pose proof (bound_step m Hl). lia.
  Qed.
  Lemma val l i : (l < L)%nat -> (i < nb D l * dl D l * hh D s l)%nat ->
    rsum (Mmin l) (fun k => Phi (hh D s l) (i mod hh D s l)%nat k * cfin l (i / hh D s l)%nat k) = rsum (S l) (fun l' => at_level l' i).
  Proof.
    revert i. induction l as [|l IH]; intros i Hl Hi.
    - rewrite rsum_last. cbn [gsum]. unfold at_level. destruct (Nat.ltb_spec i (nb D 0 * dl D 0 * hh D s 0)); [|lia]. cbn [guard cfin]. ring.
    - rewrite rsum_last. unfold at_level at 2. destruct (Nat.ltb_spec i (nb D (S l) * dl D (S l) * hh D s (S l))); [|lia]. cbn [guard].
      set (d := dl D (S l)) in *. set (h := hh D s (S l)) in *. set (n := (i / h)%nat). set (x := (i mod h)%nat).
      assert (Hd : (0 < d)%nat) by (apply (dl_pos D HD); exact Hl). assert (Hh : (0 < h)%nat) by (apply hh_pos; assumption).
      assert (Eh : hh D s l = (d * h)%nat) by (apply (hh_step D s Hs); exact Hl).
      assert (EB : (nb D l * dl D l * hh D s l = (nb D (S l) - 1) * d * h)%nat) by (rewrite (nb_step D s Hs) by (fold L; lia); rewrite Eh; lia).
      rewrite (rsum_ext _ _ (fun k => Phi h x k * ck0 (S l) n k + Phi h x k * guard (Nat.ltb n ((nb D (S l) - 1) * d)) (tri_upper (Mmin l) (Mmin l) (fun i j => Th d (n mod d)%nat j i) (cfin l (n / d)%nat) k))).
      2:{ intros k Hk. cbn [cfin]. fold d h. ring. }
      rewrite rsum_add, Rplus_comm. f_equal.
      pose proof (Nat.div_mod i h ltac:(lia)) as E1. pose proof (Nat.mod_upper_bound i h ltac:(lia)) as M1. fold n x in E1, M1.
      destruct (Nat.ltb_spec n ((nb D (S l) - 1) * d)) as [Hn|Hn].
      + cbn [guard]. assert (Hi2 : (i < nb D l * dl D l * hh D s l)%nat) by (rewrite EB; nia).
        rewrite <- (IH i ltac:(lia) Hi2). pose proof (Nat.div_mod n d ltac:(lia)) as E2. pose proof (Nat.mod_upper_bound n d ltac:(lia)) as M2.
        assert (X1 : (i / hh D s l = n / d)%nat) by (rewrite Eh; symmetry; apply (Nat.div_unique i (d * h) (n / d) (n mod d * h + x)); nia).
        assert (X2 : (i mod hh D s l = n mod d * h + x)%nat) by (rewrite Eh; symmetry; apply (Nat.mod_unique i (d * h) (n / d) (n mod d * h + x)); nia).
        rewrite X1, X2. set (q := (n mod d)%nat) in *. set (m := (n / d)%nat) in *.
        transitivity (rsum (Mmin l) (fun k => rsum (Mmin l - k) (fun j => Phi h x k * (Th d q (k + j)%nat k * cfin l m (k + j)%nat)))).
        * rewrite (rsum_more (Mmin l) (Mmin (S l))).
          -- apply rsum_ext. intros k Hk. unfold tri_upper. destruct (Nat.ltb_spec k (Mmin l)); [|lia]. rewrite <- rsum_scal. reflexivity.
          -- apply Hmono. exact Hl.
          -- intros k Hk. unfold tri_upper. destruct (Nat.ltb_spec k (Mmin l)); [lia|ring].
        * rewrite (rsum_tri (Mmin l) (fun k j => Phi h x k * (Th d q j k * cfin l m j))). apply rsum_ext. intros j Hj.
          unfold h. rewrite HTh by (fold L || exact M2 || exact M1 || lia). fold h d. rewrite Rmult_comm, <- rsum_scal. apply rsum_ext. intros k Hk. ring.
      + cbn [guard]. rewrite below by (lia || (rewrite EB; nia)). apply rsum_zero. intros k Hk. ring.
  Qed.
  Lemma out_val ck i : (forall l n k, (Mmin l <= k)%nat -> ck0 l n k = 0) -> (forall n k, ck (L - 1)%nat n k = cfin (L - 1) n k) ->
    out_level D s Mmin TT ck i = rsum L (fun l => at_level l i).
  Proof.
    intros _ Hc. unfold out_level. fold L. set (d := dl D (L - 1)). pose proof (hh_last D s Hs HL) as Eh. fold L in Eh.
    assert (Hd : (0 < d)%nat) by (apply (dl_pos D HD); fold L; lia).
    set (row := fun n => rsum (Mmin (L - 1)) (fun k => Phi s (i mod s)%nat k * cfin (L - 1) n k)).
    assert (G : forall c, (c <= nb D (L - 1))%nat -> for_up c 0 (fun b coa => for_up d 0 (fun p coa i => if (Nat.leb (get_i0 (L - 1) b s D + p * s) i && Nat.ltb i (get_i0 (L - 1) b s D + p * s + s))%bool
        then coa i + mv s (Mmin (L - 1)) TT (ck (L - 1)%nat (b * d + p)%nat) (i - (get_i0 (L - 1) b s D + p * s)) else coa i) coa) (fun _ => 0) i = guard (Nat.ltb (i / s) (c * d)) (row (i / s)%nat)).
    { pose proof (Nat.div_mod i s ltac:(lia)) as E1. pose proof (Nat.mod_upper_bound i s ltac:(lia)) as M1.
      induction c as [|c IH]; intros Hcb; [reflexivity|]. rewrite for_up_snoc. cbn [Nat.add]. specialize (IH ltac:(lia)). set (coa := for_up c 0 _ _) in *.
      assert (P : forall e, (e <= d)%nat -> for_up e 0 (fun p coa i => if (Nat.leb (get_i0 (L - 1) c s D + p * s) i && Nat.ltb i (get_i0 (L - 1) c s D + p * s + s))%bool
        then coa i + mv s (Mmin (L - 1)) TT (ck (L - 1)%nat (c * d + p)%nat) (i - (get_i0 (L - 1) c s D + p * s)) else coa i) coa i = guard (Nat.ltb (i / s) (c * d + e)) (row (i / s)%nat)).
      { induction e as [|e IHe]; intros He; [rewrite Nat.add_0_r; exact IH|]. rewrite for_up_snoc. cbn [Nat.add]. rewrite IHe by lia. clear IHe.
        pose proof (i0_row D s Hs (L - 1) c e) as ER. rewrite Eh in ER. fold d in ER. rewrite ER. unfold guard.
        destruct (Nat.leb_spec ((c * d + e) * s) i); destruct (Nat.ltb_spec i ((c * d + e) * s + s)); destruct (Nat.ltb_spec (i / s) (c * d + e)); destruct (Nat.ltb_spec (i / s) (c * d + S e)); cbn [andb]; try nia; try reflexivity.
        assert (EQ : (i / s = c * d + e)%nat) by nia. unfold mv, row. rewrite EQ in *. replace (i - (c * d + e) * s)%nat with (i mod s)%nat by nia. destruct (Nat.ltb_spec (i mod s) s); [|lia].
        rewrite Rplus_0_l. apply rsum_ext. intros k Hk. rewrite HTT by lia. rewrite Hc. reflexivity. }
      rewrite P by lia. replace (c * d + d)%nat with (S c * d)%nat by lia. reflexivity. }
    cbv zeta. rewrite G by lia. unfold guard. destruct (Nat.ltb_spec (i / s) (nb D (L - 1) * d)) as [Hi|Hi]; pose proof (Nat.div_mod i s ltac:(lia)) as E1; pose proof (Nat.mod_upper_bound i s ltac:(lia)) as M1.
    - unfold row. rewrite <- Eh. rewrite val; [f_equal; lia|lia|rewrite Eh; fold d; nia].
    - symmetry. replace L with (S (L - 1)) at 1 by lia. apply below; [lia|]. rewrite Eh. fold d. nia.
  Qed.
End Down.
