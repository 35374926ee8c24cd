(** FMMProofs3.v -- the triangles next to the diagonal, and the whole product. *)
From Coq Require Import Reals List Arith Bool Lia Lra.
From Verif Require Import Base RPoly StencilProofs8 HelmholtzProofs Leg2ChebModel Leg2ChebProofs Leg2ChebProofs2 Leg2ChebProofs3 FMMModel FMMProofs FMMProofs2.
Import ListNotations.
Local Open Scope R_scope.

Lemma shift_loop_l n a (g : nat -> R) v k :
  for_up n 0 (fun j v => upd v (a + j) (v (a + j)%nat + g j)) v k = v k + guard (Nat.leb a k && Nat.ltb k (a + n)) (g (k - a)%nat).
Proof.
  rewrite (for_up_ext n 0 _ (fun j v => upd v (j + a) (v (j + a)%nat + g j))) by (intros j w Hj; rewrite (Nat.add_comm a); reflexivity).
  rewrite shift_loop, (Nat.add_comm n a). unfold guard. destruct (_ && _)%bool; ring.
Qed.
(** loops that only add at every index *)
Lemma add_loops {X} n (f : nat -> (nat -> R) -> nat -> R) (g : nat -> R) (x : nat) (_ : X) v :
  (forall k w, (k < n)%nat -> f k w x = w x + g k) -> for_up n 0 f v x = v x + rsum n g.
Proof.
  intros H. induction n as [|n IH]; [cbn; ring|]. rewrite for_up_snoc, H by lia. rewrite IH by (intros; apply H; lia). rewrite rsum_last. cbn [Nat.add]. ring.
Qed.
Section D2.
  Variables (N s diags Nd : nat) (a u v : nat -> R).
  Hypothesis Hs : (0 < s)%nat.
  Lemma half2 x : ((2 * x) / 2 = x)%nat. Proof. rewrite Nat.mul_comm. apply Nat.div_mul. lia. Qed.
  Definition nearb (i h : nat) : bool := (Nat.leb diags h && Nat.eqb ((i + h - diags) / s) (i / s) && Nat.ltb (i / s) Nd)%bool.
  Lemma near_iff r h : nearb (r / 2) h = true <-> (diags <= h /\ r mod (2 * s) + 2 * (h - diags) < 2 * s /\ r / (2 * s) < Nd)%nat.
  Proof.
    unfold nearb. rewrite !andb_true_iff, Nat.leb_le, Nat.eqb_eq, Nat.ltb_lt.
    replace (r / (2 * s))%nat with (r / 2 / s)%nat by (rewrite Nat.div_div by lia; reflexivity).
    pose proof (Nat.div_mod r 2 ltac:(lia)) as E1. pose proof (Nat.mod_upper_bound r 2 ltac:(lia)) as M1.
    set (i := (r / 2)%nat) in *. set (o := (r mod 2)%nat) in *.
    pose proof (Nat.div_mod i s ltac:(lia)) as E2. pose proof (Nat.mod_upper_bound i s ltac:(lia)) as M2.
    assert (Em : (r mod (2 * s) = 2 * (i mod s) + o)%nat).
    { symmetry. apply (Nat.mod_unique r (2 * s) (i / s)); [lia|]. rewrite E1. rewrite E2 at 1. ring. }
    rewrite Em. set (x := (i mod s)%nat) in *. set (k := (i / s)%nat) in *. clearbody i o x k. subst r.
    assert (Q : (diags <= h)%nat -> ((i + h - diags) / s = k <-> x + (h - diags) < s)%nat).
    { intros Hd. replace (i + h - diags)%nat with (s * k + (x + (h - diags)))%nat by lia. split; intros H.
      - pose proof (Nat.div_mod (s * k + (x + (h - diags))) s ltac:(lia)) as E. pose proof (Nat.mod_upper_bound (s * k + (x + (h - diags))) s ltac:(lia)). rewrite H in E. lia.
      - symmetry. apply (Nat.div_unique _ s k (x + (h - diags))); lia. }
    split.
    - intros ((Hd & He) & Hn). apply Q in He; [|exact Hd]. lia.
    - intros (Hd & He & Hn). repeat split; try assumption. apply Q; [exact Hd|]. lia.
  Qed.
  Variable M : nat.
  Hypothesis HM : (diags + s <= M)%nat.
  (** sum over m = h - diags *)
  Lemma near_shift i (f : nat -> R) : rsum s (fun m => guard (nearb i (diags + m)) (f (diags + m)%nat)) = rsum M (fun h => guard (nearb i h) (f h)).
  Proof.
    rewrite (rsum_more (diags + s) M).
    - set (F := fun m => guard (nearb i (diags + m)) (f (diags + m)%nat)).
      rewrite (rsum_ext (diags + s) _ (fun h => guard (Nat.leb diags h) (F (h - diags)%nat))).
      + rewrite reindex_l. replace (diags + s - diags)%nat with s by lia. reflexivity.
      + intros h Hh. unfold F, guard. destruct (Nat.leb_spec diags h).
        * replace (diags + (h - diags))%nat with h by lia. reflexivity.
        * unfold nearb. destruct (Nat.leb_spec diags h); [lia|]. reflexivity.
    - exact HM.
    - intros h Hh. unfold guard. destruct (nearb i h) eqn:E; [|reflexivity]. unfold nearb in E. apply andb_prop in E. destruct E as (E & _). apply andb_prop in E. destruct E as (E1 & E2).
      apply Nat.leb_le in E1. apply Nat.eqb_eq in E2. pose proof (Nat.div_mod i s ltac:(lia)) as X. pose proof (Nat.mod_upper_bound i s ltac:(lia)).
      pose proof (Nat.div_mod (i + h - diags) s ltac:(lia)) as Y. pose proof (Nat.mod_upper_bound (i + h - diags) s ltac:(lia)). rewrite E2 in Y. lia.
  Qed.
  Lemma k_unique r k m : (k < Nd)%nat -> (m < s)%nat ->
    (Nat.leb (k * (2 * s)) r && Nat.ltb r (k * (2 * s) + (2 * s - 2 * m)))%bool = (Nat.eqb k (r / (2 * s)) && nearb (r / 2) (diags + m))%bool.
  Proof.
    intros Hk Hm. pose proof (Nat.div_mod r (2 * s) ltac:(lia)) as E. pose proof (Nat.mod_upper_bound r (2 * s) ltac:(lia)) as B0.
    destruct (Nat.eqb_spec k (r / (2 * s))) as [Ek|Ek]; cbn [andb].
    - destruct (nearb (r / 2) (diags + m)) eqn:Eb.
      + apply near_iff in Eb. destruct Eb as (_ & Eb & _). replace (diags + m - diags)%nat with m in Eb by lia.
        destruct (Nat.leb_spec (k * (2 * s)) r); [|exfalso; rewrite <- Ek in E; nia]. destruct (Nat.ltb_spec r (k * (2 * s) + (2 * s - 2 * m))); [reflexivity|]. rewrite <- Ek in E. nia.
      + destruct (Nat.leb_spec (k * (2 * s)) r); [|reflexivity]. destruct (Nat.ltb_spec r (k * (2 * s) + (2 * s - 2 * m))); [|reflexivity]. exfalso.
        assert (T : nearb (r / 2) (diags + m) = true); [|congruence]. apply near_iff. replace (diags + m - diags)%nat with m by lia. rewrite <- Ek in *. repeat split; nia.
    - set (q := (r / (2 * s))%nat) in *. set (z := (r mod (2 * s))%nat) in *. clearbody q z.
      destruct (Nat.leb_spec (k * (2 * s)) r); [|reflexivity]. destruct (Nat.ltb_spec r (k * (2 * s) + (2 * s - 2 * m))); [|reflexivity]. exfalso.
      destruct (Nat.lt_trichotomy k q) as [L|[L|L]]; [nia|contradiction|nia].
  Qed.
  Lemma pick_k r (f : nat -> R) : rsum Nd (fun k => rsum s (fun m => guard (Nat.eqb k (r / (2 * s)) && nearb (r / 2) (diags + m)) (f (diags + m)%nat))) = rsum M (fun h => guard (nearb (r / 2) h) (f h)).
  Proof.
    rewrite <- near_shift. destruct (Nat.ltb_spec (r / (2 * s)) Nd) as [Hk|Hk].
    - rewrite (rsum_at Nd (r / (2 * s))).
      + rewrite Nat.eqb_refl. reflexivity.
      + exact Hk.
      + intros k _ Hne. apply rsum_zero. intros m _. destruct (Nat.eqb_spec k (r / (2 * s))); [contradiction|reflexivity].
    - rewrite (rsum_zero Nd). 2:{ intros k Hk2. apply rsum_zero. intros m _. destruct (Nat.eqb_spec k (r / (2 * s))); [lia|reflexivity]. }
      symmetry. apply rsum_zero. intros m _. unfold guard. destruct (nearb (r / 2) (diags + m)) eqn:E; [|reflexivity]. apply near_iff in E. lia.
  Qed.
  Lemma direct2_val r : (r < N)%nat -> direct2 (2 * s) Nd (2 * diags) N false a u v r
    = v r + rsum M (fun h => guard (nearb (r / 2) h) (guard (Nat.ltb (r + 2 * h) N) (a h * a (r + h)%nat * u (r + 2 * h)%nat))).
  Proof.
    intros Hr. unfold direct2. cbv zeta. rewrite half2.
    rewrite (add_loops Nd _ (fun k => rsum s (fun m => guard (Nat.eqb k (r / (2 * s)) && nearb (r / 2) (diags + m))
       ((fun h => guard (Nat.ltb (r + 2 * h) N) (a h * a (r + h)%nat * u (r + 2 * h)%nat)) (diags + m)%nat))) r tt).
    - f_equal. exact (pick_k r (fun h => guard (Nat.ltb (r + 2 * h) N) (a h * a (r + h)%nat * u (r + 2 * h)%nat))).
    - intros k w Hk. apply (add_loops s _ _ r tt). intros m w2 Hm. rewrite shift_loop_l. f_equal.
      replace ((2 * m + 2 * diags) / 2)%nat with (diags + m)%nat by (replace (2 * m + 2 * diags)%nat with ((diags + m) * 2)%nat by lia; rewrite Nat.div_mul; lia).
      unfold guard at 2. rewrite <- k_unique by assumption. unfold guard.
      destruct (Nat.leb_spec (k * (2 * s)) r) as [H1|H1]; cbn [andb]; [|reflexivity].
      destruct (Nat.ltb_spec r (k * (2 * s) + (2 * s - 2 * m))) as [H2|H2].
      + destruct (Nat.ltb_spec (r + 2 * (diags + m)) N) as [H3|H3].
        * destruct (Nat.ltb_spec r (k * (2 * s) + Nat.min (N - (2 * diags + k * (2 * s) + 2 * m)) (2 * s - 2 * m))); [|lia]. replace (k * (2 * s) + (diags + m) + (r - k * (2 * s)))%nat with (r + (diags + m))%nat by lia. replace (2 * diags + k * (2 * s) + 2 * m + (r - k * (2 * s)))%nat with (r + 2 * (diags + m))%nat by lia. reflexivity.
        * destruct (Nat.ltb_spec r (k * (2 * s) + Nat.min (N - (2 * diags + k * (2 * s) + 2 * m)) (2 * s - 2 * m))); [lia|reflexivity].
      + destruct (Nat.ltb_spec r (k * (2 * s) + Nat.min (N - (2 * diags + k * (2 * s) + 2 * m)) (2 * s - 2 * m))); [lia|reflexivity].
  Qed.
  Variable dn : nat -> R.
  Lemma direct3_val r : (r < N)%nat -> direct3 (2 * s) Nd (2 * diags) N dn a u v r
    = v r + rsum M (fun h => guard (nearb (r / 2) h) (guard (Nat.ltb (r + 2 * h) N) (- (dn h * a (r + h)%nat * u (r + 2 * h)%nat)))).
  Proof.
    intros Hr. unfold direct3. cbv zeta. rewrite half2.
    rewrite (add_loops Nd _ (fun k => rsum s (fun m => guard (Nat.eqb k (r / (2 * s)) && nearb (r / 2) (diags + m))
       ((fun h => guard (Nat.ltb (r + 2 * h) N) (- (dn h * a (r + h)%nat * u (r + 2 * h)%nat))) (diags + m)%nat))) r tt).
    - f_equal. exact (pick_k r (fun h => guard (Nat.ltb (r + 2 * h) N) (- (dn h * a (r + h)%nat * u (r + 2 * h)%nat)))).
    - intros k w Hk. apply (add_loops s _ _ r tt). intros m w2 Hm.
      replace ((2 * m + 2 * diags) / 2)%nat with (diags + m)%nat by (replace (2 * m + 2 * diags)%nat with ((diags + m) * 2)%nat by lia; rewrite Nat.div_mul; lia).
      transitivity (w2 r + guard (Nat.leb (k * (2 * s)) r && Nat.ltb r (k * (2 * s) + Nat.min (N - (2 * diags + k * (2 * s) + 2 * m)) (2 * s - 2 * m)))
        ((fun j => - (dn (diags + m)%nat * a (k * (2 * s) + (diags + m) + j)%nat * u (2 * diags + k * (2 * s) + 2 * m + j)%nat)) (r - k * (2 * s))%nat)).
      { rewrite <- (shift_loop_l (Nat.min (N - (2 * diags + k * (2 * s) + 2 * m)) (2 * s - 2 * m)) (k * (2 * s)) (fun j => - (dn (diags + m)%nat * a (k * (2 * s) + (diags + m) + j)%nat * u (2 * diags + k * (2 * s) + 2 * m + j)%nat))).
        reflexivity. }
      f_equal. unfold guard at 2. rewrite <- k_unique by assumption. unfold guard.
      destruct (Nat.leb_spec (k * (2 * s)) r) as [H1|H1]; cbn [andb]; [|reflexivity].
      destruct (Nat.ltb_spec r (k * (2 * s) + (2 * s - 2 * m))) as [H2|H2].
      + destruct (Nat.ltb_spec (r + 2 * (diags + m)) N) as [H3|H3].
        * destruct (Nat.ltb_spec r (k * (2 * s) + Nat.min (N - (2 * diags + k * (2 * s) + 2 * m)) (2 * s - 2 * m))); [|lia]. replace (k * (2 * s) + (diags + m) + (r - k * (2 * s)))%nat with (r + (diags + m))%nat by lia. replace (2 * diags + k * (2 * s) + 2 * m + (r - k * (2 * s)))%nat with (r + 2 * (diags + m))%nat by lia. reflexivity.
        * destruct (Nat.ltb_spec r (k * (2 * s) + Nat.min (N - (2 * diags + k * (2 * s) + 2 * m)) (2 * s - 2 * m))); [lia|reflexivity].
      + destruct (Nat.ltb_spec r (k * (2 * s) + Nat.min (N - (2 * diags + k * (2 * s) + 2 * m)) (2 * s - 2 * m))); [lia|reflexivity].
  Qed.
  (** transposed: entry c receives from the row c - 2 h *)
  Lemma direct2_T_val c : (c < N)%nat -> direct2 (2 * s) Nd (2 * diags) N true a u v c
    = v c + rsum M (fun h => guard (Nat.leb (2 * h) c && nearb ((c - 2 * h) / 2) h) (a h * a (c - h)%nat * u (c - 2 * h)%nat)).
  Proof.
    intros Hc. unfold direct2. cbv zeta. rewrite half2.
    set (f := fun h => guard (Nat.leb (2 * h) c) (a h * a (c - h)%nat * u (c - 2 * h)%nat)).
    rewrite (add_loops Nd _ (fun k => rsum s (fun m => guard (Nat.eqb k ((c - 2 * (diags + m)) / (2 * s)) && nearb ((c - 2 * (diags + m)) / 2) (diags + m)) (f (diags + m)%nat))) c tt).
    - f_equal. rewrite gsum_swap.
      transitivity (rsum s (fun m => guard (nearb ((c - 2 * (diags + m)) / 2) (diags + m)) (f (diags + m)%nat))).
      + apply rsum_ext. intros m Hm. destruct (Nat.ltb_spec ((c - 2 * (diags + m)) / (2 * s)) Nd) as [Hk|Hk].
        * rewrite (rsum_at Nd ((c - 2 * (diags + m)) / (2 * s))); [rewrite Nat.eqb_refl; reflexivity|exact Hk|].
          intros k _ Hne. destruct (Nat.eqb_spec k ((c - 2 * (diags + m)) / (2 * s))); [contradiction|reflexivity].
        * rewrite rsum_zero. 2:{ intros k Hk2. destruct (Nat.eqb_spec k ((c - 2 * (diags + m)) / (2 * s))); [lia|reflexivity]. }
          unfold guard. destruct (nearb ((c - 2 * (diags + m)) / 2) (diags + m)) eqn:E; [|reflexivity]. apply near_iff in E. lia.
      + rewrite (rsum_more (diags + s) M); [|exact HM|].
        * set (F := fun m => guard (nearb ((c - 2 * (diags + m)) / 2) (diags + m)) (f (diags + m)%nat)).
          rewrite (rsum_ext (diags + s) _ (fun h => guard (Nat.leb diags h) (F (h - diags)%nat))).
          -- rewrite reindex_l. replace (diags + s - diags)%nat with s by lia. reflexivity.
          -- intros h Hh. unfold F, f, guard. destruct (Nat.leb_spec diags h).
             ++ replace (diags + (h - diags))%nat with h by lia. destruct (Nat.leb (2 * h) c); cbn [andb]; [reflexivity|]. destruct (nearb _ _); reflexivity.
             ++ unfold nearb. destruct (Nat.leb_spec diags h); [lia|]. cbn [andb]. rewrite andb_false_r. reflexivity.
        * intros h Hh. unfold guard. destruct (Nat.leb (2 * h) c); cbn [andb]; [|reflexivity]. destruct (nearb ((c - 2 * h) / 2) h) eqn:E; [|reflexivity]. apply near_iff in E. lia.
    - intros k w Hk. apply (add_loops s _ _ c tt). intros m w2 Hm.
      replace ((2 * m + 2 * diags) / 2)%nat with (diags + m)%nat by (replace (2 * m + 2 * diags)%nat with ((diags + m) * 2)%nat by lia; rewrite Nat.div_mul; lia).
      rewrite (shift_loop_l (Nat.min (N - (2 * diags + k * (2 * s) + 2 * m)) (2 * s - 2 * m)) (2 * diags + k * (2 * s) + 2 * m)). f_equal.
      unfold guard at 2. rewrite <- k_unique by assumption. unfold f, guard.
      destruct (Nat.leb_spec (2 * diags + k * (2 * s) + 2 * m) c) as [H1|H1]; cbn [andb].
      + destruct (Nat.leb_spec (k * (2 * s)) (c - 2 * (diags + m))); [|lia]. cbn [andb]. destruct (Nat.leb_spec (2 * (diags + m)) c); [|lia].
        destruct (Nat.ltb_spec (c - 2 * (diags + m)) (k * (2 * s) + (2 * s - 2 * m))).
        * match goal with |- context [Nat.ltb c ?y] => destruct (Nat.ltb_spec c y); [|lia] end. replace (k * (2 * s) + (diags + m) + (c - (2 * diags + k * (2 * s) + 2 * m)))%nat with (c - (diags + m))%nat by lia. replace (k * (2 * s) + (c - (2 * diags + k * (2 * s) + 2 * m)))%nat with (c - 2 * (diags + m))%nat by lia. reflexivity.
        * match goal with |- context [Nat.ltb c ?y] => destruct (Nat.ltb_spec c y); [lia|] end. reflexivity.
      + destruct (Nat.leb_spec (2 * (diags + m)) c).
        * destruct (Nat.leb_spec (k * (2 * s)) (c - 2 * (diags + m))); [lia|]. reflexivity.
        * match goal with |- context [if ?b then 0 else 0] => destruct b end; reflexivity.
  Qed.
End D2.
(** one of the three parts, exactly *)
Lemma split_parts D s diags i h : (0 < s)%nat -> (i + h < diags + s * get_number_of_blocks (List.length D) D)%nat -> forall y,
  y = guard (Nat.ltb h diags) y + guard (nearb s diags (get_number_of_blocks (List.length D) D) i h) y + guard (farb D s diags i (i + h)) y.
Proof.
  intros Hs Hb y. set (Nd := get_number_of_blocks (List.length D) D) in *. unfold nearb, farb. fold Nd. unfold guard.
  pose proof (Nat.div_mod i s ltac:(lia)) as E2. pose proof (Nat.mod_upper_bound i s ltac:(lia)) as M2.
  pose proof (Nat.div_mod (i + h - diags) s ltac:(lia)) as E3. pose proof (Nat.mod_upper_bound (i + h - diags) s ltac:(lia)) as M3.
  set (a := (i / s)%nat) in *. set (b := ((i + h - diags) / s)%nat) in *. set (x := (i mod s)%nat) in *. set (z := ((i + h - diags) mod s)%nat) in *. clearbody a b x z.
  destruct (Nat.ltb_spec h diags) as [L|L].
  - destruct (Nat.leb_spec diags h); [lia|]. cbn [andb]. destruct (Nat.leb_spec diags (i + h)); cbn [andb]; [|ring].
    destruct (Nat.ltb_spec a b); [|cbn [andb]; ring]. exfalso. nia.
  - destruct (Nat.leb_spec diags h); [|lia]. destruct (Nat.leb_spec diags (i + h)); [|lia]. cbn [andb].
    assert (b < Nd)%nat by nia. assert (a <= b)%nat by nia. destruct (Nat.ltb_spec b Nd); [|lia].
    destruct (Nat.eqb_spec b a); destruct (Nat.ltb_spec a Nd); destruct (Nat.ltb_spec a b); cbn [andb]; try lia; ring.
Qed.
