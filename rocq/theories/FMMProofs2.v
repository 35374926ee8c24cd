(** FMMProofs2.v -- the three parts add up to the product with the full matrix. *)
From Coq Require Import Reals List Arith Bool Lia Lra.
From Verif Require Import Base RPoly StencilProofs8 HelmholtzProofs Leg2ChebModel Leg2ChebProofs Leg2ChebProofs2 Leg2ChebProofs3 FMMModel FMMProofs.
Import ListNotations.
Local Open Scope R_scope.

(** ** sums over the submatrices *)
Lemma rsum_window B c h f : (c + h <= B)%nat -> rsum h (fun jj => f (c + jj)%nat) = rsum B (fun j => guard (Nat.leb c j && Nat.ltb j (c + h)) (f j)).
Proof.
  intros H. rewrite (rsum_more (c + h) B); [|lia|intros i Hi; unfold guard; destruct (Nat.ltb_spec i (c + h)); [lia|rewrite andb_false_r; reflexivity]].
  set (F := fun k => f (c + k)%nat). rewrite (rsum_ext (c + h) _ (fun j => guard (Nat.leb c j) (F (j - c)%nat))).
  - rewrite reindex_l. replace (c + h - c)%nat with h by lia. reflexivity.
  - intros j Hj. unfold guard. destruct (Nat.leb_spec c j); cbn [andb]; [|reflexivity]. destruct (Nat.ltb_spec j (c + h)); [|lia]. unfold F. f_equal. lia.
Qed.
Lemma fold_sum_ext {A} (f g : A -> R) l : (forall x, In x l -> f x = g x) -> fold_right Rplus 0 (map f l) = fold_right Rplus 0 (map g l).
Proof. intros H. f_equal. apply map_ext_in. exact H. Qed.
Lemma fold_sum_swap {A} B (f : A -> nat -> R) l : fold_right Rplus 0 (map (fun x => rsum B (f x)) l) = rsum B (fun j => fold_right Rplus 0 (map (fun x => f x j) l)).
Proof.
  induction l as [|x l IH]; cbn [map fold_right].
  - symmetry. apply rsum_zero. reflexivity.
  - rewrite IH, <- rsum_add. reflexivity.
Qed.
Lemma fold_count {A} (p : A -> bool) y l : fold_right Rplus 0 (map (fun x => guard (p x) y) l) = INR (count p l) * y.
Proof.
  induction l as [|x l IH]; [cbn; ring|]. cbn [map fold_right]. rewrite IH. change (count p (x :: l)) with ((if p x then 1 else 0) + count p l)%nat. rewrite plus_INR. unfold guard. destruct (p x); cbn [INR]; ring.
Qed.
Lemma sub_bound D s diags r c h : Forall (fun d => (0 < d)%nat) D -> (0 < s)%nat -> In (r, c, h) (submatrices D s diags) -> (0 < h)%nat ->
  (r + h <= s * get_number_of_blocks (List.length D) D /\ c + h <= diags + s * get_number_of_blocks (List.length D) D)%nat.
Proof.
  intros HD Hs HI Hh. pose proof (cover D s diags (r + h - 1) (c + h - 1) HD Hs) as C. set (B := get_number_of_blocks (List.length D) D) in *.
  assert (P : (1 <= count (inside (r + h - 1) (c + h - 1)) (submatrices D s diags))%nat).
  { revert HI. generalize (submatrices D s diags). intros l. induction l as [|x l IH]; intros HI; [destruct HI|]. unfold count. cbn [map list_sum fold_right]. destruct HI as [->|HI].
    - unfold inside. repeat match goal with |- context [Nat.leb ?x ?y] => destruct (Nat.leb_spec x y); [|lia] | |- context [Nat.ltb ?x ?y] => destruct (Nat.ltb_spec x y); [|lia] end. cbn [andb]. lia.
    - specialize (IH HI). unfold count, list_sum in IH. destruct (inside _ _ x); cbn; lia. }
  destruct (Nat.leb_spec diags (c + h - 1)); cbn [andb] in C; [|lia].
  pose proof (Nat.div_mod (r + h - 1) s ltac:(lia)) as EI. pose proof (Nat.mod_upper_bound (r + h - 1) s ltac:(lia)) as MI.
  pose proof (Nat.div_mod (c + h - 1 - diags) s ltac:(lia)) as EJ. pose proof (Nat.mod_upper_bound (c + h - 1 - diags) s ltac:(lia)) as MJ.
  destruct (Nat.ltb_spec ((r + h - 1) / s) ((c + h - 1 - diags) / s)); cbn [andb] in C; [|lia].
  destruct (Nat.ltb_spec ((c + h - 1 - diags) / s) B); [|lia]. split; nia.
Qed.
Section Sums.
  Variables (N : nat) (D : list nat) (s diags : nat) (K : nat -> nat -> R) (u : nat -> R).
  Hypothesis HD : Forall (fun d => (0 < d)%nat) D.
  Hypothesis Hs : (0 < s)%nat.
  Let Nd := get_number_of_blocks (List.length D) D.
  Let B := (diags + s * Nd)%nat.
  Definition farb (i j : nat) : bool := (Nat.leb diags j && Nat.ltb (i / s) ((j - diags) / s) && Nat.ltb ((j - diags) / s) Nd)%bool.
  Lemma count_farb i j y : INR (count (inside i j) (submatrices D s diags)) * y = guard (farb i j) y.
  Proof. rewrite cover by assumption. unfold farb, Nd, guard. destruct (_ && _)%bool; cbn [INR]; ring. Qed.
  Definition cia (odd j : nat) : R := guard (Nat.ltb (2 * j + odd) N) (u (2 * j + odd)%nat).
  Lemma cia_eq odd j : (odd < 2)%nat -> (if Nat.ltb j (N / 2 + (N mod 2) * (1 - odd)) then u (2 * j + odd)%nat else 0) = cia odd j.
  Proof.
    intros Ho. unfold cia, guard. pose proof (Nat.div_mod N 2 ltac:(lia)) as E. pose proof (Nat.mod_upper_bound N 2 ltac:(lia)) as M.
    destruct (Nat.ltb_spec j (N / 2 + (N mod 2) * (1 - odd))); destruct (Nat.ltb_spec (2 * j + odd) N); try reflexivity; exfalso; destruct odd as [|[|o]]; nia.
  Qed.
  Lemma half_sum odd i : (odd < 2)%nat -> fmm_half N D s diags K u odd i = rsum B (fun j => guard (farb i j) (K (2 * i + odd)%nat (2 * j + odd)%nat * cia odd j)).
  Proof.
    intros Ho. unfold fmm_half. cbv zeta.
    rewrite (fold_sum_ext _ (fun sub => rsum B (fun j => guard (inside i j sub) (K (2 * i + odd)%nat (2 * j + odd)%nat * cia odd j)))).
    - rewrite fold_sum_swap. apply rsum_ext. intros j Hj. rewrite fold_count. apply count_farb.
    - intros [[r c] h] Hin. unfold inside. destruct (Nat.leb r i && Nat.ltb i (r + h))%bool eqn:E; cbn [andb].
      + assert (Hh : (0 < h)%nat) by (apply andb_prop in E; destruct E as (E1 & E2); apply Nat.leb_le in E1; apply Nat.ltb_lt in E2; lia).
        pose proof (sub_bound D s diags r c h HD Hs Hin Hh) as (_ & Hb).
        rewrite (rsum_ext h _ (fun jj => (fun j => K (2 * i + odd)%nat (2 * j + odd)%nat * cia odd j) (c + jj)%nat)); [exact (rsum_window B c h (fun j => K (2 * i + odd)%nat (2 * j + odd)%nat * cia odd j) Hb)|].
        intros jj Hjj. f_equal. apply (cia_eq odd (c + jj) Ho).
      + symmetry. apply rsum_zero. reflexivity.
  Qed.
  Lemma half_sum_T odd j : (odd < 2)%nat -> fmm_half_T N D s diags K u odd j = rsum B (fun i => guard (farb i j) (K (2 * i + odd)%nat (2 * j + odd)%nat * cia odd i)).
  Proof.
    intros Ho. unfold fmm_half_T. cbv zeta.
    rewrite (fold_sum_ext _ (fun sub => rsum B (fun i => guard (inside i j sub) (K (2 * i + odd)%nat (2 * j + odd)%nat * cia odd i)))).
    - rewrite fold_sum_swap. apply rsum_ext. intros i Hi. rewrite fold_count. apply count_farb.
    - intros [[r c] h] Hin. unfold inside. destruct (Nat.leb c j && Nat.ltb j (c + h))%bool eqn:E.
      + assert (Hh : (0 < h)%nat) by (apply andb_prop in E; destruct E as (E1 & E2); apply Nat.leb_le in E1; apply Nat.ltb_lt in E2; lia).
        pose proof (sub_bound D s diags r c h HD Hs Hin Hh) as (Hb & _). fold Nd in Hb.
        rewrite (rsum_ext h _ (fun ii => (fun i => K (2 * i + odd)%nat (2 * j + odd)%nat * cia odd i) (r + ii)%nat)).
        * rewrite (rsum_window B r h (fun i => K (2 * i + odd)%nat (2 * j + odd)%nat * cia odd i)) by (unfold B; lia). apply rsum_ext. intros i Hi. f_equal. apply andb_prop in E. destruct E as (-> & ->). rewrite !andb_true_r. reflexivity.
        * intros ii Hii. f_equal. apply (cia_eq odd (r + ii) Ho).
      + symmetry. apply rsum_zero. intros i Hi. unfold guard. rewrite <- !andb_assoc, E, !andb_false_r. reflexivity.
  Qed.

  Variable G : nat -> nat -> R.
  Hypothesis HG : forall r h, (diags <= h)%nat -> (1 <= h)%nat -> K r (r + 2 * h)%nat = G h r.
  Variable M : nat.
  Hypothesis HM : (B + evens N + diags + s <= M)%nat.
  (** part of the product handled by the submatrices *)
  Lemma far_pos i j : farb i j = true -> (i < j /\ diags <= j /\ i + diags < j /\ j < B)%nat.
  Proof.
    unfold farb, B. intros H. apply andb_prop in H. destruct H as (H & H3). apply andb_prop in H. destruct H as (H1 & H2). apply Nat.leb_le in H1. apply Nat.ltb_lt in H2, H3.
    pose proof (Nat.div_mod i s ltac:(lia)) as EI. pose proof (Nat.mod_upper_bound i s ltac:(lia)) as MI.
    pose proof (Nat.div_mod (j - diags) s ltac:(lia)) as EJ. pose proof (Nat.mod_upper_bound (j - diags) s ltac:(lia)) as MJ. nia.
  Qed.
  Lemma fmm_cheb_sum r : (r < N)%nat -> fmm_cheb N D s diags K u r = rsum M (fun h => guard (farb (r / 2) (r / 2 + h)) (guard (Nat.ltb (r + 2 * h) N) (G h r * u (r + 2 * h)%nat))).
  Proof.
    intros Hr. unfold fmm_cheb. destruct (Nat.ltb_spec r N); [|lia]. set (i := (r / 2)%nat). set (odd := (r mod 2)%nat).
    assert (Er : r = (2 * i + odd)%nat) by (apply Nat.div_mod; lia). assert (Ho : (odd < 2)%nat) by (apply Nat.mod_upper_bound; lia).
    rewrite half_sum by exact Ho.
    set (F := fun h => guard (farb i (i + h)) (guard (Nat.ltb (r + 2 * h) N) (G h r * u (r + 2 * h)%nat))). rewrite (rsum_ext B _ (fun j => guard (Nat.leb i j) (F (j - i)%nat))).
    - rewrite reindex_l. symmetry. apply rsum_more; [lia|]. intros h Hh. unfold F, guard at 1. destruct (farb i (i + h)) eqn:E; [|reflexivity]. apply far_pos in E. lia.
    - intros j Hj. unfold F, guard at 1 2 3. destruct (Nat.leb_spec i j).
      + replace (i + (j - i))%nat with j by lia. destruct (farb i j) eqn:E; [|reflexivity]. apply far_pos in E. unfold cia, guard.
        replace (2 * j + odd)%nat with (r + 2 * (j - i))%nat by lia. destruct (Nat.ltb (r + 2 * (j - i)) N); [|ring]. rewrite <- Er, HG by lia. reflexivity.
      + destruct (farb i j) eqn:E; [|reflexivity]. apply far_pos in E. lia.
  Qed.
  Lemma fmm_cheb_T_sum c : (c < N)%nat -> fmm_cheb_T N D s diags K u c = rsum M (fun h => guard (Nat.leb (2 * h) c && farb (c / 2 - h) (c / 2)) (G h (c - 2 * h)%nat * u (c - 2 * h)%nat)).
  Proof.
    intros Hc. unfold fmm_cheb_T. destruct (Nat.ltb_spec c N); [|lia]. set (j := (c / 2)%nat). set (odd := (c mod 2)%nat).
    assert (Er : c = (2 * j + odd)%nat) by (apply Nat.div_mod; lia). assert (Ho : (odd < 2)%nat) by (apply Nat.mod_upper_bound; lia).
    rewrite half_sum_T by exact Ho. pose proof (evens_pos N) as HE.
    (* i = j - h *)
    transitivity (rsum (S j) (fun i => guard (farb i j) (K (2 * i + odd)%nat (2 * j + odd)%nat * cia odd i))).
    { rewrite <- (rsum_more B (B + S j)); [|lia|].
      - apply rsum_more; [lia|]. intros i Hi. unfold guard. destruct (farb i j) eqn:E; [|reflexivity]. apply far_pos in E. lia.
      - intros i Hi. unfold guard. destruct (farb i j) eqn:E; [|reflexivity]. apply far_pos in E. lia. }
    rewrite (rsum_more (S j) M); [|lia|].
    - assert (REV : forall n f, rsum n f = rsum n (fun i => f (n - 1 - i)%nat)).
      { induction n as [|n IH]; intros f; [reflexivity|]. rewrite rsum_last. rewrite (rsum_first n (fun i => f (S n - 1 - i)%nat)). rewrite Rplus_comm. f_equal; [f_equal; lia|].
        rewrite IH. apply rsum_ext. intros i Hi. f_equal. lia. }
      rewrite REV. apply rsum_ext. intros h Hh. replace (S j - 1 - h)%nat with (j - h)%nat by lia. destruct (Nat.leb_spec (2 * h) c); [|lia]. cbn [andb].
      unfold guard at 1 2. destruct (farb (j - h) j) eqn:E; [|reflexivity]. apply far_pos in E. unfold cia, guard. destruct (Nat.ltb_spec (2 * (j - h) + odd) N); [|lia].
      replace (2 * (j - h) + odd)%nat with (c - 2 * h)%nat by lia. replace (2 * j + odd)%nat with (c - 2 * h + 2 * h)%nat by lia. rewrite HG by lia. reflexivity.
    - intros h Hh. unfold guard. destruct (Nat.leb_spec (2 * h) c); [lia|reflexivity].
  Qed.
End Sums.
