(** FMMSweepProofs4.v -- the sweeps compute the product with the low rank submatrices. *)
From Coq Require Import Reals List Arith Bool Lia Lra.
From Verif Require Import Base RPoly HelmholtzProofs StencilProofs8 Leg2ChebProofs Leg2ChebProofs2 Leg2ChebProofs3 FMMModel FMMProofs FMMSweepModel FMMSweepSpec FMMSweepProofs FMMSweepProofs2 FMMSweepProofs3.
Import ListNotations.
Local Open Scope R_scope.

Lemma ns_app {X} (f : nat -> X -> R) l m ik : numbered_sum f ik (l ++ m) = numbered_sum f ik l + numbered_sum f (ik + List.length l) m.
Proof. revert ik. induction l as [|x l IH]; intros ik; cbn [app numbered_sum List.length]; [rewrite Nat.add_0_r; ring|]. rewrite IH. replace (S ik + List.length l)%nat with (ik + S (List.length l))%nat by lia. ring. Qed.
Lemma ns_flat {X} (f : nat -> X -> R) (g : nat -> list X) (len : nat -> nat) n ik : len 0%nat = 0%nat -> (forall b, (b < n)%nat -> len (S b) = (len b + List.length (g b))%nat) ->
  numbered_sum f ik (flat_map g (seq 0 n)) = rsum n (fun b => numbered_sum f (ik + len b) (g b)) /\ List.length (flat_map g (seq 0 n)) = len n.
Proof.
  intros H0 HS. induction n as [|n IH]; [split; [reflexivity|symmetry; exact H0]|]. destruct IH as (E & EL); [intros; apply HS; lia|]. rewrite seq_S, flat_map_app. cbn [Nat.add flat_map]. rewrite app_nil_r. split.
  - rewrite ns_app, EL, E, rsum_last. reflexivity.
  - rewrite app_length, EL. symmetry. apply HS. lia.
Qed.
Lemma ns_map {X} (f : nat -> X -> R) (g : nat -> X) n ik : numbered_sum f ik (map g (seq 0 n)) = rsum n (fun p => f (ik + p)%nat (g p)).
Proof.
  induction n as [|n IH]; [reflexivity|]. rewrite seq_S, map_app, ns_app, map_length, seq_length, IH, rsum_last. cbn [map numbered_sum Nat.add]. ring.
Qed.
Section List.
  Variables (D : list nat) (s diags : nat).
  Hypothesis HD : Forall (fun d => (0 < d)%nat) D.
  Hypothesis Hs : (0 < s)%nat.
  Variable f : nat -> nat * nat * nat -> R.
  Let sq (l b q p : nat) := ((b * dl D l + p) * hh D s l, col D s diags l (b * dl D l + q), hh D s l)%nat.
  Lemma level_len l b : List.length (flat_map (fun q => map (fun p => (get_i0 l b s D + p * hh D s l, get_j0 l b s D diags + (q + 1) * hh D s l, hh D s l)%nat) (seq 0 (q + 1))) (seq 0 (dl D l))) = tr (dl D l).
  Proof. apply (ns_flat f _ tr (dl D l) 0); [reflexivity|]. intros q Hq. rewrite map_length, seq_length. cbn [tr]. lia. Qed.
  Lemma ns_level l ik : numbered_sum f ik (lvl D s diags l) = rsum (nb D l) (fun b => rsum (dl D l) (fun q => rsum (q + 1) (fun p => f (ik + b * tr (dl D l) + tr q + p)%nat (sq l b q p))))
    /\ List.length (lvl D s diags l) = (nb D l * tr (dl D l))%nat.
  Proof.
    unfold lvl. fold (dl D l). fold (nb D l). fold (hh D s l).
    edestruct (ns_flat f (fun b => flat_map (fun q => map (fun p => (get_i0 l b s D + p * hh D s l, get_j0 l b s D diags + (q + 1) * hh D s l, hh D s l)%nat) (seq 0 (q + 1))) (seq 0 (dl D l)))
       (fun b => b * tr (dl D l))%nat (nb D l) ik) as (E & EL); [reflexivity|intros b Hb; cbv beta; rewrite level_len; lia|]. split; [|exact EL]. rewrite E. apply rsum_ext. intros b Hb.
    edestruct (ns_flat f (fun q => map (fun p => (get_i0 l b s D + p * hh D s l, get_j0 l b s D diags + (q + 1) * hh D s l, hh D s l)%nat) (seq 0 (q + 1))) tr (dl D l) (ik + b * tr (dl D l))) as (E2 & _);
      [reflexivity|intros q Hq; rewrite map_length, seq_length; cbn [tr]; lia|]. rewrite E2. apply rsum_ext. intros q Hq. rewrite ns_map. apply rsum_ext. intros p Hp. f_equal. unfold sq.
    rewrite i0_row by exact Hs. rewrite (j0_col D s diags Hs). reflexivity.
  Qed.
  Lemma ns_all : numbered_sum f 0 (submatrices D s diags) = rsum (nL D) (fun l => rsum (nb D l) (fun b => rsum (dl D l) (fun q => rsum (q + 1) (fun p => f (off D (S l) + b * tr (dl D l) + tr q + p)%nat (sq l b q p))))).
  Proof.
    rewrite subs_lvl. fold (nL D). assert (G : forall m, (m <= nL D)%nat -> numbered_sum f (off D m) (flat_map (lvl D s diags) (rev (seq 0 m)))
       = rsum m (fun l => rsum (nb D l) (fun b => rsum (dl D l) (fun q => rsum (q + 1) (fun p => f (off D (S l) + b * tr (dl D l) + tr q + p)%nat (sq l b q p)))))).
    { induction m as [|m IH]; intros Hm; [reflexivity|]. rewrite seq_S, rev_unit. cbn [Nat.add flat_map]. rewrite ns_app. destruct (ns_level m (off D (S m))) as (E & EL). rewrite E, EL, rsum_last.
      replace (off D (S m) + nb D m * tr (dl D m))%nat with (off D m).
      - rewrite IH by lia. ring.
      - unfold off. replace (nL D - m)%nat with (S (nL D - S m)) by lia. cbn [seq map list_sum fold_right]. change (fold_right Nat.add 0%nat) with list_sum. unfold cnt. lia. }
    rewrite <- (G (nL D) ltac:(lia)). f_equal. unfold off. rewrite Nat.sub_diag. reflexivity.
  Qed.
End List.
(** one row: the pieces that contain it *)
Lemma pick_row nbl d n (g : nat -> nat -> nat -> R) : (0 < d)%nat ->
  rsum nbl (fun b => rsum d (fun q => rsum (q + 1) (fun p => guard (Nat.eqb n (b * d + p)) (g b q p)))) = guard (Nat.ltb n (nbl * d)) (rsum d (fun q => guard (Nat.leb (n mod d) q) (g (n / d)%nat q (n mod d)%nat))).
Proof.
  intros Hd. pose proof (Nat.div_mod n d ltac:(lia)) as E. pose proof (Nat.mod_upper_bound n d ltac:(lia)) as M.
  assert (Z : forall b q p, (q < d)%nat -> (p < q + 1)%nat -> n = (b * d + p)%nat -> b = (n / d)%nat /\ p = (n mod d)%nat).
  { intros b q p Hq Hp En. split; [apply (Nat.div_unique n d b p); lia|apply (Nat.mod_unique n d b p); lia]. }
  unfold guard at 2. destruct (Nat.ltb_spec n (nbl * d)) as [H|H].
  - rewrite (rsum_at nbl (n / d)).
    + apply rsum_ext. intros q Hq. unfold guard. destruct (Nat.leb_spec (n mod d) q).
      * rewrite (rsum_at (q + 1) (n mod d)); [|lia|].
        -- destruct (Nat.eqb_spec n (n / d * d + n mod d)); [reflexivity|lia].
        -- intros p Hp Hne. destruct (Nat.eqb_spec n (n / d * d + p)) as [En|]; [|reflexivity]. destruct (Z _ _ _ Hq Hp En); contradiction.
      * apply rsum_zero. intros p Hp. destruct (Nat.eqb_spec n (n / d * d + p)) as [En|]; [|reflexivity]. destruct (Z _ _ _ Hq Hp En). lia.
    + apply Nat.div_lt_upper_bound; lia.
    + intros b _ Hne. apply rsum_zero. intros q Hq. apply rsum_zero. intros p Hp. unfold guard. destruct (Nat.eqb_spec n (b * d + p)) as [En|]; [|reflexivity]. destruct (Z _ _ _ Hq Hp En); contradiction.
  - apply rsum_zero. intros b Hb. apply rsum_zero. intros q Hq. apply rsum_zero. intros p Hp. unfold guard. destruct (Nat.eqb_spec n (b * d + p)) as [En|]; [|reflexivity]. nia.
Qed.
Section Sweep.
  Variables (D : list nat) (s diags : nat).
  Hypothesis HD : Forall (fun d => (0 < d)%nat) D.
  Hypothesis Hs : (0 < s)%nat.
  Variables (Mmin Nk : nat -> nat) (A : nat -> nat -> nat -> R).
  Variables (TT : nat -> nat -> R) (Th : nat -> nat -> nat -> nat -> R) (cia : nat -> R) (Phi : nat -> nat -> nat -> R).
  Let L := nL D.
  Hypothesis HL : (0 < L)%nat.
  Hypothesis HTT : forall x k, (x < s)%nat -> (k < Mmin (L - 1))%nat -> TT x k = Phi s x k.
  Hypothesis HTh : forall l q x k, (S l < L)%nat -> (q < dl D (S l))%nat -> (x < hh D s (S l))%nat -> (k < Mmin l)%nat ->
    Phi (hh D s l) (q * hh D s (S l) + x)%nat k = rsum (k + 1) (fun j => Th (dl D (S l)) q k j * Phi (hh D s (S l)) x j).
  Hypothesis Hmono : forall l, (S l < L)%nat -> (Mmin l <= Mmin (S l))%nat.
  Hypothesis HNk : forall l b q p, (l < L)%nat -> (b < nb D l)%nat -> (q < dl D l)%nat -> (p <= q)%nat -> (Nk (off D (S l) + b * tr (dl D l) + tr q + p) <= Mmin l)%nat.
  Definition LR (ik h x y : nat) : R := rsum (Nk ik) (fun k => rsum (Nk ik) (fun j => A ik k j * Phi h x k * Phi h y j)).
  Lemma LR_sum ik h x n l : h = hh D s l ->
    rsum h (fun y => LR ik h x y * cia (col D s diags l n + y)%nat) = rsum (Nk ik) (fun k => Phi h x k * mv (Nk ik) (Nk ik) (A ik) (W D s diags cia Phi l n) k).
  Proof.
    intros ->. set (h := hh D s l). unfold LR.
    rewrite (rsum_ext h _ (fun y => rsum (Nk ik) (fun k => rsum (Nk ik) (fun j => A ik k j * Phi h x k * Phi h y j * cia (col D s diags l n + y)%nat)))).
    2:{ intros y Hy. rewrite Rmult_comm, <- rsum_scal. apply rsum_ext. intros k Hk. rewrite <- rsum_scal. apply rsum_ext. intros j Hj. ring. }
    rewrite gsum_swap. apply rsum_ext. intros k Hk. unfold mv. destruct (Nat.ltb_spec k (Nk ik)); [|lia]. rewrite <- rsum_scal, gsum_swap. apply rsum_ext. intros j Hj. unfold W. fold h. rewrite <- rsum_scal, <- rsum_scal. apply rsum_ext. intros y Hy. ring.
  Qed.
  Lemma sweep_product i : sweep D s diags Mmin Nk A TT Th cia i = product LR (submatrices D s diags) cia i.
  Proof.
    unfold sweep. fold L. pose proof (up_sweep D s diags HD Hs Mmin Nk A TT Th cia Phi HL HTT HTh Hmono HNk) as U. fold L in U.
    destruct (for_down L _ _) as [[ik wk] ck]. destruct U as [_ _ _ Uc]. cbn [snd] in Uc. fold L in Uc.
    assert (Hhigh : forall l n k, (Mmin l <= k)%nat -> ck l n k = 0).
    { intros l n k Hk. rewrite Uc. unfold guard. destruct (Nat.leb_spec 0 l); [|lia]. destruct (Nat.ltb_spec l L); cbn [andb]; [|reflexivity]. destruct (Nat.ltb_spec n (nb D l * dl D l)); [|reflexivity].
      unfold ownW, own, term. apply rsum_zero. intros q Hq. unfold guard. destruct (Nat.leb_spec (n - n / dl D l * dl D l) q); [|reflexivity].
      unfold mv. assert (Hd : (0 < dl D l)%nat) by (apply (dl_pos D HD); assumption).
      assert (HN : (Nk (off D (S l) + n / dl D l * tr (dl D l) + tr q + (n - n / dl D l * dl D l)) <= Mmin l)%nat) by (apply HNk; [assumption|apply Nat.div_lt_upper_bound; lia|assumption|assumption]).
      destruct (Nat.ltb_spec k (Nk (off D (S l) + n / dl D l * tr (dl D l) + tr q + (n - n / dl D l * dl D l)))); [lia|reflexivity]. }
    rewrite (out_val D s HD Hs Mmin TT Th Phi HL HTT HTh Hmono ck _ i Hhigh).
    2:{ intros n k. rewrite (down_all D s HD Hs Mmin Th HL ck) by (fold L; lia). fold L. rewrite Nat.leb_refl. reflexivity. }
    unfold product. rewrite (ns_all D s diags Hs). fold L. apply rsum_ext. intros l Hl. assert (Hd : (0 < dl D l)%nat) by (apply (dl_pos D HD); exact Hl).
    set (h := hh D s l). assert (Hh : (0 < h)%nat) by (apply hh_pos; assumption). set (d := dl D l) in *.
    pose proof (Nat.div_mod i h ltac:(lia)) as E1. pose proof (Nat.mod_upper_bound i h ltac:(lia)) as M1. set (n := (i / h)%nat) in *. set (x := (i mod h)%nat) in *.
    transitivity (rsum (nb D l) (fun b => rsum d (fun q => rsum (q + 1) (fun p => guard (Nat.eqb n (b * d + p))
       (rsum h (fun y => LR (off D (S l) + b * tr d + tr q + p)%nat h x y * cia (col D s diags l (b * d + q) + y)%nat)))))).
    2:{ apply rsum_ext. intros b Hb. apply rsum_ext. intros q Hq. apply rsum_ext. intros p Hp. unfold guard.
        destruct (Nat.eqb_spec n (b * d + p)) as [En|En].
        - destruct (Nat.leb_spec ((b * d + p) * h) i); [|nia]. destruct (Nat.ltb_spec i ((b * d + p) * h + h)); [|nia]. cbn [andb]. replace (i - (b * d + p) * h)%nat with x by nia. reflexivity.
        - destruct (Nat.leb_spec ((b * d + p) * h) i); [|reflexivity]. destruct (Nat.ltb_spec i ((b * d + p) * h + h)); [|reflexivity]. exfalso. apply En. symmetry. apply (Nat.div_unique i h (b * d + p) (i - (b * d + p) * h)); lia. }
    rewrite (pick_row (nb D l) d n (fun b q p => rsum h (fun y => LR (off D (S l) + b * tr d + tr q + p)%nat h x y * cia (col D s diags l (b * d + q) + y)%nat)) Hd).
    unfold at_level. fold h d n x. unfold guard at 1 2. destruct (Nat.ltb_spec i (nb D l * d * h)) as [Hi|Hi]; destruct (Nat.ltb_spec n (nb D l * d)) as [Hn|Hn]; try nia; [|reflexivity].
    pose proof (Nat.div_mod n d ltac:(lia)) as E2. pose proof (Nat.mod_upper_bound n d ltac:(lia)) as M2. assert (Hnb : (n / d < nb D l)%nat) by (apply Nat.div_lt_upper_bound; lia).
    rewrite (rsum_ext (Mmin l) _ (fun k => rsum d (fun q => guard (Nat.leb (n mod d) q) (Phi h x k * mv (Nk (off D (S l) + n / d * tr d + tr q + n mod d)%nat) (Nk (off D (S l) + n / d * tr d + tr q + n mod d)%nat)
       (A (off D (S l) + n / d * tr d + tr q + n mod d)%nat) (W D s diags cia Phi l (n / d * d + q)%nat) k)))).
    2:{ intros k Hk. rewrite Uc. unfold guard at 1. destruct (Nat.ltb_spec l L); [|lia]. cbn [Nat.leb andb]. fold d. destruct (Nat.ltb_spec n (nb D l * d)); [|lia]. unfold ownW, own, term. fold d. rewrite <- rsum_scal. apply rsum_ext. intros q Hq.
        replace (n - n / d * d)%nat with (n mod d)%nat by lia. unfold guard. destruct (Nat.leb (n mod d) q); ring. }
    rewrite gsum_swap. apply rsum_ext. intros q Hq. unfold guard. destruct (Nat.leb_spec (n mod d) q); [|apply rsum_zero; reflexivity].
    rewrite (LR_sum _ h x _ l eq_refl). apply rsum_more; [apply HNk; assumption|]. intros k Hk. unfold mv. destruct (Nat.ltb_spec k (Nk (off D (S l) + n / d * tr d + tr q + n mod d)%nat)); [lia|ring].
  Qed.
End Sweep.
