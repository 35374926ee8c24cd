(** FMMProofs.v -- every entry above the diagonal blocks lies in exactly one submatrix. *)
From Coq Require Import List Arith Bool Lia.
From Verif Require Import Base FMMModel.
Import ListNotations.

Definition inside (i j : nat) (sub : nat * nat * nat) : bool :=
  match sub with (r, c, h) => (Nat.leb r i && Nat.ltb i (r + h) && Nat.leb c j && Nat.ltb j (c + h))%bool end.
Definition count {A} (f : A -> bool) (l : list A) : nat := list_sum (map (fun x => if f x then 1 else 0) l).
Lemma count_app {A} f (l m : list A) : count f (l ++ m) = count f l + count f m.
Proof. unfold count. rewrite map_app, list_sum_app. reflexivity. Qed.
Lemma count_map {A B} f (g : A -> B) l : count f (map g l) = count (fun x => f (g x)) l.
Proof. unfold count. rewrite map_map. reflexivity. Qed.
Lemma count_ext {A} (f g : A -> bool) l : (forall x, In x l -> f x = g x) -> count f l = count g l.
Proof. intros H. unfold count. f_equal. apply map_ext_in. intros x Hx. rewrite H by exact Hx. reflexivity. Qed.
Lemma count_flat_map {A B} f (g : A -> list B) l : count f (flat_map g l) = list_sum (map (fun x => count f (g x)) l).
Proof. induction l as [|x l IH]; [reflexivity|]. cbn [flat_map map list_sum]. rewrite count_app, IH. reflexivity. Qed.
Lemma sum_at n k f : (forall i, i < n -> i <> k -> f i = 0) -> list_sum (map f (seq 0 n)) = if Nat.ltb k n then f k else 0.
Proof.
  intros H. induction n as [|n IH]; [reflexivity|]. rewrite seq_S, map_app, list_sum_app, IH by (intros; apply H; lia). cbn [map list_sum Nat.add fold_right].
  destruct (Nat.ltb_spec k n); destruct (Nat.ltb_spec k (S n)); try lia.
  - rewrite (H n) by lia. lia.
  - replace k with n by lia. lia.
  - rewrite (H n) by lia. reflexivity.
Qed.

(** ** D with one more level *)
Lemma get_h_snoc level D d : level < length D -> get_h level (D ++ [d]) = get_h level D * d.
Proof.
  intros H. unfold get_h. rewrite skipn_app. replace (level + 1 - length D) with 0 by lia. cbn [skipn].
  generalize (skipn (level + 1) D). intros l. induction l as [|x l IH]; cbn [app fold_right]; [lia|]. rewrite IH. lia.
Qed.
Lemma get_h_last D d : get_h (length D) (D ++ [d]) = 1.
Proof. unfold get_h. rewrite skipn_all2; [reflexivity|]. rewrite app_length. cbn. lia. Qed.
Lemma cumprod_scale a l : list_sum (cumprod a l) = a * list_sum (cumprod 1 l).
Proof.
  revert a. induction l as [|d l IH]; intros a; cbn [cumprod list_sum fold_right]; [lia|]. change (fold_right Nat.add 0) with list_sum.
  rewrite IH, (IH (1 * d)). lia.
Qed.
Lemma nblocks_snoc D d : get_number_of_blocks (S (length D)) (D ++ [d]) = 1 + d * get_number_of_blocks (length D) D.
Proof.
  unfold get_number_of_blocks. rewrite !firstn_all2 by (rewrite ?app_length; cbn; lia). rewrite rev_unit. cbn [cumprod list_sum fold_right].
  change (fold_right Nat.add 0) with list_sum. rewrite (cumprod_scale (1 * d)). lia.
Qed.
Lemma nblocks_lt level D d : level <= length D -> get_number_of_blocks level (D ++ [d]) = get_number_of_blocks level D.
Proof.
  intros H. unfold get_number_of_blocks. rewrite firstn_app. replace (level - length D) with 0 by lia. cbn [firstn]. rewrite app_nil_r. reflexivity.
Qed.
Lemma nth_snoc level (D : list nat) d : level < length D -> nth level (D ++ [d]) 0 = nth level D 0.
Proof. intros H. apply app_nth1. exact H. Qed.
Definition lvl (D : list nat) (s diags level : nat) : list (nat * nat * nat) :=
    let h := s * get_h level D in
    flat_map (fun block =>
      flat_map (fun q => map (fun p => (get_i0 level block s D + p * h, get_j0 level block s D diags + (q + 1) * h, h)) (seq 0 (q + 1)))
        (seq 0 (nth level D 0)))
      (seq 0 (get_number_of_blocks level D)).
Lemma subs_lvl D s diags : submatrices D s diags = flat_map (lvl D s diags) (rev (seq 0 (length D))).
Proof. reflexivity. Qed.
Definition scl (d : nat) (sub : nat * nat * nat) : nat * nat * nat := match sub with (r, c, h) => (r * d, c * d + 1, h * d) end.
Definition scs (s diags : nat) (sub : nat * nat * nat) : nat * nat * nat := match sub with (r, c, h) => (r * s, diags + c * s, h * s) end.
Lemma flat_map_map {A B C} (f : A -> list B) (g : B -> C) l : map g (flat_map f l) = flat_map (fun x => map g (f x)) l.
Proof. induction l as [|x l IH]; [reflexivity|]. cbn [flat_map]. rewrite map_app, IH. reflexivity. Qed.
Lemma flat_map_ext_in {A B} (f g : A -> list B) l : (forall x, In x l -> f x = g x) -> flat_map f l = flat_map g l.
Proof.
  intros H. induction l as [|x l IH]; [reflexivity|]. cbn [flat_map]. rewrite H by (left; reflexivity). f_equal. apply IH. intros y Hy. apply H. right; exact Hy.
Qed.
Lemma list_sum_scale {A} k f g (l : list A) : (forall x, In x l -> f x = k * g x) -> list_sum (map f l) = k * list_sum (map g l).
Proof.
  intros H. induction l as [|x l IH]; [cbn; lia|]. cbn [map list_sum fold_right]. change (fold_right Nat.add 0) with list_sum.
  rewrite H by (left; reflexivity). rewrite IH by (intros y Hy; apply H; right; exact Hy). lia.
Qed.
(** the sizes scale with s *)
Lemma lvl_s D s diags level : lvl D s diags level = map (scs s diags) (lvl D 1 0 level).
Proof.
  unfold lvl. rewrite flat_map_map. apply flat_map_ext_in. intros b _. rewrite flat_map_map. apply flat_map_ext_in. intros q _. rewrite map_map. apply map_ext. intros p.
  unfold scs, get_j0, get_i0. rewrite (list_sum_scale s (fun i => s * get_h i D) (fun i => 1 * get_h i D)) by (intros; lia).
  generalize (list_sum (map (fun i => 1 * get_h i D) (seq (level + 1) (length D - (level + 1))))). intros X. f_equal; [f_equal|]; ring.
Qed.
Lemma subs_s D s diags : submatrices D s diags = map (scs s diags) (submatrices D 1 0).
Proof. rewrite !subs_lvl, flat_map_map. apply flat_map_ext_in. intros l _. apply lvl_s. Qed.
Lemma lvl_snoc D d level : level < length D -> lvl (D ++ [d]) 1 0 level = map (scl d) (lvl D 1 0 level).
Proof.
  intros H. unfold lvl. rewrite flat_map_map, nth_snoc, nblocks_lt, get_h_snoc by lia. apply flat_map_ext_in. intros b _. rewrite flat_map_map. apply flat_map_ext_in. intros q _. rewrite map_map. apply map_ext. intros p.
  unfold scl, get_j0, get_i0. rewrite nth_snoc, get_h_snoc by lia.
  assert (E : list_sum (map (fun i => 1 * get_h i (D ++ [d])) (seq (level + 1) (length (D ++ [d]) - (level + 1))))
    = d * list_sum (map (fun i => 1 * get_h i D) (seq (level + 1) (length D - (level + 1)))) + 1).
  { rewrite app_length. cbn [length]. replace (length D + 1 - (level + 1)) with (S (length D - (level + 1))) by lia. rewrite seq_S, map_app, list_sum_app.
    replace (level + 1 + (length D - (level + 1))) with (length D) by lia. cbn [map list_sum fold_right]. rewrite get_h_last.
    rewrite (list_sum_scale d (fun i => 1 * get_h i (D ++ [d])) (fun i => 1 * get_h i D)); [lia|].
    intros i Hi. apply in_seq in Hi. rewrite get_h_snoc by lia. lia. }
  rewrite E. generalize (list_sum (map (fun i => 1 * get_h i D) (seq (level + 1) (length D - (level + 1))))). intros X. f_equal; [f_equal|]; ring.
Qed.
Lemma subs_snoc D d : submatrices (D ++ [d]) 1 0 = lvl (D ++ [d]) 1 0 (length D) ++ map (scl d) (submatrices D 1 0).
Proof.
  rewrite !subs_lvl, app_length. cbn [length]. rewrite Nat.add_1_r, seq_S, rev_unit. cbn [flat_map Nat.add]. f_equal.
  rewrite flat_map_map. apply flat_map_ext_in. intros l Hl. apply in_rev, in_seq in Hl. apply lvl_snoc. lia.
Qed.
(** the finest level: pairs of blocks with the same quotient *)
Lemma count_finest D d I J : 0 < d -> 1 <= J ->
  count (inside I J) (lvl (D ++ [d]) 1 0 (length D))
  = if (Nat.eqb (I / d) ((J - 1) / d) && Nat.ltb (I / d) (get_number_of_blocks (length D) D) && Nat.ltb I J)%bool then 1 else 0.
Proof.
  intros Hd HJ. unfold lvl. rewrite get_h_last, nblocks_lt by lia. rewrite app_nth2, Nat.sub_diag by lia. cbn [nth]. rewrite count_flat_map.
  assert (E : forall b, count (inside I J) (flat_map (fun q => map (fun p => (get_i0 (length D) b 1 (D ++ [d]) + p * (1 * 1), get_j0 (length D) b 1 (D ++ [d]) 0 + (q + 1) * (1 * 1), 1 * 1)) (seq 0 (q + 1))) (seq 0 d))
    = if (Nat.eqb b (I / d) && Nat.eqb b ((J - 1) / d) && Nat.ltb I J)%bool then 1 else 0).
  { intros b. rewrite count_flat_map. unfold get_j0, get_i0. rewrite get_h_last, app_nth2, Nat.sub_diag by lia. cbn [nth]. rewrite app_length. cbn [length].
    replace (length D + 1 - (length D + 1)) with 0 by lia. cbn [seq map list_sum fold_right].
    pose proof (Nat.div_mod I d ltac:(lia)) as EI. pose proof (Nat.mod_upper_bound I d ltac:(lia)) as MI.
    pose proof (Nat.div_mod (J - 1) d ltac:(lia)) as EJ. pose proof (Nat.mod_upper_bound (J - 1) d ltac:(lia)) as MJ.
    set (a := I / d) in *. set (m := I mod d) in *. set (c := (J - 1) / d) in *. set (n := (J - 1) mod d) in *. clearbody a m c n.
    assert (QI : forall p, p < d -> (I = b * d + p <-> (b = a /\ p = m))).
    { intros p Hp. split; [|intros (-> & ->); lia]. intros E. assert (b = a) by (destruct (Nat.lt_trichotomy b a) as [L|[L|L]]; [exfalso; nia|exact L|exfalso; nia]). subst b. split; [reflexivity|]. lia. }
    assert (QJ : forall q, q < d -> (J = b * d + q + 1 <-> (b = c /\ q = n))).
    { intros q Hq. split; [|intros (-> & ->); lia]. intros E. assert (b = c) by (destruct (Nat.lt_trichotomy b c) as [L|[L|L]]; [exfalso; nia|exact L|exfalso; nia]). subst b. split; [reflexivity|]. lia. }
    rewrite (sum_at d n).
    - destruct (Nat.ltb_spec n d); [|lia]. rewrite count_map. unfold count. rewrite (sum_at (n + 1) m).
      + unfold inside. destruct (Nat.eqb_spec b a) as [Ha|Ha]; [destruct (Nat.eqb_spec b c) as [Hc|Hc]|]; cbn [andb].
        * assert (I = b * d + m) by (apply QI; [lia|auto]). assert (J = b * d + n + 1) by (apply QJ; [lia|auto]).
          destruct (Nat.ltb_spec m (n + 1)); destruct (Nat.ltb_spec I J); try lia.
          repeat match goal with |- context [Nat.leb ?x ?y] => destruct (Nat.leb_spec x y); [|lia] | |- context [Nat.ltb ?x ?y] => destruct (Nat.ltb_spec x y); [|lia] end. reflexivity.
        * destruct (Nat.ltb_spec m (n + 1)); [|reflexivity]. assert (J <> b * d + n + 1) by (intros X; apply QJ in X; [tauto|lia]).
          repeat match goal with |- context [Nat.leb ?x ?y] => destruct (Nat.leb_spec x y) | |- context [Nat.ltb ?x ?y] => destruct (Nat.ltb_spec x y) end; cbn [andb]; try reflexivity; lia.
        * destruct (Nat.ltb_spec m (n + 1)); [|reflexivity]. assert (I <> b * d + m) by (intros X; apply QI in X; [tauto|lia]).
          repeat match goal with |- context [Nat.leb ?x ?y] => destruct (Nat.leb_spec x y) | |- context [Nat.ltb ?x ?y] => destruct (Nat.ltb_spec x y) end; cbn [andb]; try reflexivity; lia.
      + intros p Hp Hne. unfold inside. destruct (Nat.eq_dec I (b * d + p)) as [X|X].
        * apply QI in X; [|lia]. tauto.
        * repeat match goal with |- context [Nat.leb ?x ?y] => destruct (Nat.leb_spec x y) | |- context [Nat.ltb ?x ?y] => destruct (Nat.ltb_spec x y) end; cbn [andb]; try reflexivity; lia.
    - intros q Hq Hne. rewrite count_map. unfold count. transitivity (list_sum (map (fun _ : nat => 0) (seq 0 (q + 1)))).
      + f_equal. apply map_ext. intros p. unfold inside. assert (J <> b * d + q + 1) by (intros X; apply QJ in X; [tauto|lia]).
        repeat match goal with |- context [Nat.leb ?x ?y] => destruct (Nat.leb_spec x y) | |- context [Nat.ltb ?x ?y] => destruct (Nat.ltb_spec x y) end; cbn [andb]; try reflexivity; lia.
      + generalize (seq 0 (q + 1)). intros l. induction l as [|x l IH]; [reflexivity|exact IH]. }
  rewrite (sum_at (get_number_of_blocks (length D) D) (I / d)).
  - rewrite E, Nat.eqb_refl. cbn [andb]. destruct (Nat.ltb (I / d) _), (Nat.eqb (I / d) _), (Nat.ltb I J); reflexivity.
  - intros b _ Hb. rewrite E. destruct (Nat.eqb_spec b (I / d)); [contradiction|reflexivity].
Qed.
Lemma scl_inside d sub I J : 0 < d -> 1 <= J -> inside I J (scl d sub) = inside (I / d) ((J - 1) / d) sub.
Proof.
  intros Hd HJ. destruct sub as [[r c] h]. unfold scl, inside.
  pose proof (Nat.div_mod I d ltac:(lia)) as EI. pose proof (Nat.mod_upper_bound I d ltac:(lia)) as MI.
  pose proof (Nat.div_mod (J - 1) d ltac:(lia)) as EJ. pose proof (Nat.mod_upper_bound (J - 1) d ltac:(lia)) as MJ.
  set (a := I / d) in *. set (m := I mod d) in *. set (k := (J - 1) / d) in *. set (n := (J - 1) mod d) in *. clearbody a m k n.
  f_equal; [f_equal; [f_equal|]|].
  - destruct (Nat.leb_spec (r * d) I); destruct (Nat.leb_spec r a); try reflexivity; exfalso; nia.
  - destruct (Nat.ltb_spec I (r * d + h * d)); destruct (Nat.ltb_spec a (r + h)); try reflexivity; exfalso; nia.
  - destruct (Nat.leb_spec (c * d + 1) J); destruct (Nat.leb_spec c k); try reflexivity; exfalso; nia.
  - destruct (Nat.ltb_spec J (c * d + 1 + h * d)); destruct (Nat.ltb_spec k (c + h)); try reflexivity; exfalso; nia.
Qed.
Lemma scl_inside_0 d sub I : inside I 0 (scl d sub) = false.
Proof. destruct sub as [[r c] h]. unfold scl, inside. destruct (Nat.leb_spec (c * d + 1) 0); [lia|]. rewrite andb_false_r. reflexivity. Qed.
Lemma lvl_finest_0 D d I : count (inside I 0) (lvl (D ++ [d]) 1 0 (length D)) = 0.
Proof.
  unfold lvl. rewrite count_flat_map. transitivity (list_sum (map (fun _ : nat => 0) (seq 0 (get_number_of_blocks (length D) (D ++ [d]))))).
  - f_equal. apply map_ext. intros b. rewrite count_flat_map. transitivity (list_sum (map (fun _ : nat => 0) (seq 0 (nth (length D) (D ++ [d]) 0)))).
    + f_equal. apply map_ext. intros q. rewrite count_map. unfold count. transitivity (list_sum (map (fun _ : nat => 0) (seq 0 (q + 1)))).
      * f_equal. apply map_ext. intros p. rewrite get_h_last. unfold inside. match goal with |- context [Nat.leb (?x + (q + 1) * (1 * 1)) 0] => destruct (Nat.leb_spec (x + (q + 1) * (1 * 1)) 0); [lia|] end.
        rewrite andb_false_r. reflexivity.
      * generalize (seq 0 (q + 1)). intros l. induction l as [|x l IH]; [reflexivity|exact IH].
    + generalize (seq 0 (nth (length D) (D ++ [d]) 0)). intros l. induction l as [|x l IH]; [reflexivity|exact IH].
  - generalize (seq 0 (get_number_of_blocks (length D) (D ++ [d]))). intros l. induction l as [|x l IH]; [reflexivity|exact IH].
Qed.
Lemma cover_blocks D : Forall (fun d => 0 < d) D -> forall I J,
  count (inside I J) (submatrices D 1 0) = if (Nat.ltb I J && Nat.ltb J (get_number_of_blocks (length D) D))%bool then 1 else 0.
Proof.
  induction D as [|d D IH] using rev_ind; intros HD I J.
  - change (get_number_of_blocks (length []) []) with 1. transitivity 0; [reflexivity|]. destruct (Nat.ltb_spec I J); [|reflexivity]. destruct (Nat.ltb_spec J 1); [lia|reflexivity].
  - apply Forall_app in HD. destruct HD as (HD & Hd). inversion Hd as [|? ? Hd0 _]. subst. specialize (IH HD).
    rewrite subs_snoc, count_app, count_map. rewrite app_length. cbn [length]. rewrite Nat.add_1_r, nblocks_snoc.
    destruct (Nat.eq_dec J 0) as [->|HJ].
    + rewrite lvl_finest_0. rewrite (count_ext _ (fun _ => false)) by (intros; apply scl_inside_0).
      replace (Nat.ltb I 0) with false by (symmetry; apply Nat.ltb_ge; lia). cbn [andb]. unfold count. generalize (submatrices D 1 0). intros l. induction l as [|x l IHl]; [reflexivity|exact IHl].
    + rewrite count_finest by lia. rewrite (count_ext _ (inside (I / d) ((J - 1) / d))) by (intros; apply scl_inside; lia). rewrite IH.
      pose proof (Nat.div_mod I d ltac:(lia)) as EI. pose proof (Nat.mod_upper_bound I d ltac:(lia)) as MI.
      pose proof (Nat.div_mod (J - 1) d ltac:(lia)) as EJ. pose proof (Nat.mod_upper_bound (J - 1) d ltac:(lia)) as MJ.
      set (a := I / d) in *. set (m := I mod d) in *. set (k := (J - 1) / d) in *. set (n := (J - 1) mod d) in *. set (B := get_number_of_blocks (length D) D) in *. clearbody a m k n B.
      destruct (Nat.ltb_spec I J); destruct (Nat.ltb_spec J (1 + d * B)); cbn [andb]; rewrite ?andb_false_r; cbn [Nat.add].
      * assert (k < B) by nia. assert (a <= k) by nia. destruct (Nat.eqb_spec a k); destruct (Nat.ltb_spec a k); destruct (Nat.ltb_spec a B); destruct (Nat.ltb_spec k B); cbn [andb]; lia.
      * assert (B <= k) by nia. destruct (Nat.eqb_spec a k); destruct (Nat.ltb_spec a k); destruct (Nat.ltb_spec a B); destruct (Nat.ltb_spec k B); cbn [andb]; lia.
      * assert (k <= a) by nia. destruct (Nat.ltb_spec a k); cbn [andb]; lia.
      * assert (k <= a) by nia. destruct (Nat.ltb_spec a k); cbn [andb]; lia.
Qed.
(** ** with block size s and diags *)
Lemma scs_inside s diags sub i j : 0 < s -> diags <= j -> inside i j (scs s diags sub) = inside (i / s) ((j - diags) / s) sub.
Proof.
  intros Hs Hj. destruct sub as [[r c] h]. unfold scs, inside.
  pose proof (Nat.div_mod i s ltac:(lia)) as EI. pose proof (Nat.mod_upper_bound i s ltac:(lia)) as MI.
  pose proof (Nat.div_mod (j - diags) s ltac:(lia)) as EJ. pose proof (Nat.mod_upper_bound (j - diags) s ltac:(lia)) as MJ.
  set (a := i / s) in *. set (m := i mod s) in *. set (k := (j - diags) / s) in *. set (n := (j - diags) mod s) in *. clearbody a m k n.
  f_equal; [f_equal; [f_equal|]|].
  - destruct (Nat.leb_spec (r * s) i); destruct (Nat.leb_spec r a); try reflexivity; exfalso; nia.
  - destruct (Nat.ltb_spec i (r * s + h * s)); destruct (Nat.ltb_spec a (r + h)); try reflexivity; exfalso; nia.
  - destruct (Nat.leb_spec (diags + c * s) j); destruct (Nat.leb_spec c k); try reflexivity; exfalso; nia.
  - destruct (Nat.ltb_spec j (diags + c * s + h * s)); destruct (Nat.ltb_spec k (c + h)); try reflexivity; exfalso; nia.
Qed.
Lemma cover D s diags i j : Forall (fun d => 0 < d) D -> 0 < s ->
  count (inside i j) (submatrices D s diags)
  = if (Nat.leb diags j && Nat.ltb (i / s) ((j - diags) / s) && Nat.ltb ((j - diags) / s) (get_number_of_blocks (length D) D))%bool then 1 else 0.
Proof.
  intros HD Hs. rewrite subs_s, count_map. destruct (Nat.leb_spec diags j); cbn [andb].
  - rewrite (count_ext _ (inside (i / s) ((j - diags) / s))) by (intros; apply scs_inside; lia). apply cover_blocks. exact HD.
  - rewrite (count_ext _ (fun _ => false)).
    + unfold count. generalize (submatrices D 1 0). intros l. induction l as [|x l IHl]; [reflexivity|exact IHl].
    + intros [[r c] h] _. unfold scs, inside. destruct (Nat.leb_spec (diags + c * s) j); [nia|]. rewrite andb_false_r. reflexivity.
Qed.
