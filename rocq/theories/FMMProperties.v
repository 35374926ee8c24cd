(** FMMProperties.v -- C47: the hierarchical decomposition used by Leg2Cheb and Cheb2Leg for long arrays. *)
From Coq Require Import Reals List Arith Bool Lia Lra.
From Verif Require Import Base RPoly HelmholtzProofs Leg2ChebModel Leg2ChebSpec Leg2ChebProofs Leg2ChebProofs2 Leg2ChebProofs3 Leg2ChebProofs4
  FMMModel FMMSpec FMMProofs FMMProofs2 FMMProofs3 FMMProofs4.
Import ListNotations.
Local Open Scope R_scope.

Lemma how_many_count {A} (f : A -> bool) l : how_many f l = count f l.
Proof. unfold how_many, count. induction l as [|x l IH]; [reflexivity|]. cbn [filter map list_sum fold_right]. destruct (f x); cbn [List.length]; rewrite IH; reflexivity. Qed.

(** ** which part handles which entry *)
(** Every entry on or above the diagonal of the (padded) matrix belongs to exactly one of: the first diagonals, one
    triangle, one submatrix; whatever the domain sizes, block size and number of diagonals. *)
Theorem C47_every_entry_once : forall D s diags i j, Forall (fun d => (0 < d)%nat) D -> (0 < s)%nat ->
  let Nd := get_number_of_blocks (List.length D) D in
  (i <= j)%nat -> (j < diags + s * Nd)%nat -> visits diags s Nd (submatrices D s diags) i j = 1%nat.
Proof.
  intros D s diags i j HD Hs Nd Hij Hj. unfold visits. rewrite !how_many_count.
  rewrite (count_ext (in_square i j) (inside i j)) by (intros [[r c] h] _; reflexivity). rewrite (cover D s diags i j HD Hs). fold Nd.
  assert (HT : count (in_triangle diags s i j) (seq 0 Nd) = if (Nat.leb (i + diags) j && Nat.eqb (i / s) ((j - diags) / s))%bool then 1%nat else 0%nat).
  { pose proof (Nat.div_mod i s ltac:(lia)) as EI. pose proof (Nat.mod_upper_bound i s ltac:(lia)) as MI.
    pose proof (Nat.div_mod (j - diags) s ltac:(lia)) as EJ. pose proof (Nat.mod_upper_bound (j - diags) s ltac:(lia)) as MJ.
    set (a := (i / s)%nat) in *. set (b := ((j - diags) / s)%nat) in *. set (x := (i mod s)%nat) in *. set (y := ((j - diags) mod s)%nat) in *. clearbody a b x y.
    destruct (Nat.leb_spec (i + diags) j) as [L|L]; cbn [andb].
    - assert (Ha : (a < Nd)%nat) by nia. unfold count. rewrite (sum_at Nd a); [destruct (Nat.ltb_spec a Nd); [|lia]|].
      + unfold in_triangle. destruct (Nat.leb_spec (a * s) i); [|nia]. destruct (Nat.ltb_spec i (a * s + s)); [|nia]. destruct (Nat.leb_spec (i + diags) j); [|nia]. cbn [andb].
        destruct (Nat.eqb_spec a b) as [->|Hab].
        * destruct (Nat.ltb_spec j (diags + b * s + s)); [reflexivity|nia].
        * destruct (Nat.ltb_spec j (diags + a * s + s)); [|reflexivity]. assert (a < b)%nat by nia. nia.
      + intros k Hk Hne. unfold in_triangle. destruct (Nat.leb_spec (k * s) i); [|reflexivity]. destruct (Nat.ltb_spec i (k * s + s)); [|reflexivity]. exfalso. apply Hne. nia.
    - unfold count. induction (seq 0 Nd) as [|k l IH]; [reflexivity|]. cbn [map list_sum fold_right]. fold (list_sum (map (fun x => if in_triangle diags s i j x then 1%nat else 0%nat) l)).
      rewrite IH. unfold in_triangle. destruct (Nat.leb_spec (i + diags) j); [lia|]. rewrite andb_false_r. reflexivity. }
  rewrite HT. unfold in_band. destruct (Nat.leb_spec i j); [|lia]. cbn [andb].
  pose proof (Nat.div_mod i s ltac:(lia)) as EI. pose proof (Nat.mod_upper_bound i s ltac:(lia)) as MI.
  pose proof (Nat.div_mod (j - diags) s ltac:(lia)) as EJ. pose proof (Nat.mod_upper_bound (j - diags) s ltac:(lia)) as MJ.
  set (a := (i / s)%nat) in *. set (b := ((j - diags) / s)%nat) in *. set (x := (i mod s)%nat) in *. set (y := ((j - diags) mod s)%nat) in *. clearbody a b x y.
  destruct (Nat.ltb_spec j (i + diags)).
  - destruct (Nat.leb_spec (i + diags) j); [lia|]. cbn [andb]. destruct (Nat.leb_spec diags j); [|reflexivity]. cbn [andb]. destruct (Nat.ltb_spec a b); [nia|reflexivity].
  - destruct (Nat.leb_spec (i + diags) j); [|lia]. destruct (Nat.leb_spec diags j); [|lia]. cbn [andb].
    destruct (Nat.eqb_spec a b) as [->|Hne].
    + rewrite Nat.ltb_irrefl. reflexivity.
    + destruct (Nat.ltb_spec a b) as [|]; [|assert (b < a)%nat by lia; nia]. cbn [andb]. destruct (Nat.ltb_spec b Nd); [reflexivity|nia].
Qed.
Print Assumptions C47_every_entry_once.
Example C47_every_entry_once_ex : List.length (submatrices [2; 3]%nat 4 5) = 21%nat /\ visits 5 4 (get_number_of_blocks 2 [2; 3]%nat) (submatrices [2; 3]%nat 4 5) 3 44 = 1%nat
  /\ get_number_of_blocks 2 [2; 3]%nat = 10%nat /\ Forall (fun d => (0 < d)%nat) [2; 3]%nat.
Proof. repeat split; repeat constructor. Qed.
(** No submatrix reaches outside the arrays of Nn/2 even or odd coefficients, and none touches the diagonal. *)
Theorem C47_submatrices_inside : forall D s diags r c h, Forall (fun d => (0 < d)%nat) D -> (0 < s)%nat -> In (r, c, h) (submatrices D s diags) ->
  let Nd := get_number_of_blocks (List.length D) D in
  (r + h <= s * Nd)%nat /\ (c + h <= diags + s * Nd)%nat /\ (0 < h -> r + h + diags <= c)%nat.
Proof.
  intros D s diags r c h HD Hs HI Nd. assert (Hh : (0 < h)%nat).
  { unfold submatrices in HI. apply in_flat_map in HI. destruct HI as (lev & _ & HI). apply in_flat_map in HI. destruct HI as (b & _ & HI). apply in_flat_map in HI. destruct HI as (q & _ & HI).
    apply in_map_iff in HI. destruct HI as (p & E & _). inversion E; subst. assert (P : (0 < get_h lev D)%nat); [|nia].
    unfold get_h. assert (F : Forall (fun d => (0 < d)%nat) (skipn (lev + 1) D)) by (apply Forall_forall; intros z Hz; rewrite Forall_forall in HD; apply HD; rewrite <- (firstn_skipn (lev + 1) D); apply in_or_app; right; exact Hz).
    induction F as [|z l Hz _ IH]; cbn [fold_right]; nia. }
  destruct (sub_bound D s diags r c h HD Hs HI Hh) as (B1 & B2). split; [exact B1|]. split; [exact B2|]. intros _.
  pose proof (cover D s diags (r + h - 1) c HD Hs) as C.
  assert (P : (1 <= count (inside (r + h - 1) c) (submatrices D s diags))%nat).
  { clear C. revert HI. generalize (submatrices D s diags). intros l. induction l as [|z l IH]; intros HI; [destruct HI|]. unfold count. cbn [map list_sum fold_right]. destruct HI as [->|HI].
    - unfold inside. destruct (Nat.leb_spec r (r + h - 1)); [|lia]. destruct (Nat.ltb_spec (r + h - 1) (r + h)); [|lia]. destruct (Nat.leb_spec c c); [|lia]. destruct (Nat.ltb_spec c (c + h)); [|lia]. cbn [andb]. lia.
    - specialize (IH HI). unfold count, list_sum in IH. lia. }
  rewrite C in P. destruct (Nat.leb_spec diags c); cbn [andb] in P; [|lia]. destruct (Nat.ltb_spec ((r + h - 1) / s) ((c - diags) / s)) as [L|]; cbn [andb] in P; [|lia].
  pose proof (Nat.div_mod (r + h - 1) s ltac:(lia)). pose proof (Nat.mod_upper_bound (r + h - 1) s ltac:(lia)). pose proof (Nat.div_mod (c - diags) s ltac:(lia)). pose proof (Nat.mod_upper_bound (c - diags) s ltac:(lia)). nia.
Qed.
Print Assumptions C47_submatrices_inside.
Example C47_submatrices_inside_ex : In (4, 25, 12)%nat (submatrices [2; 3]%nat 4 5) \/ In (12, 33, 12)%nat (submatrices [2; 3]%nat 4 5) \/ In (0, 21, 12)%nat (submatrices [2; 3]%nat 4 5).
Proof. cbv. tauto. Qed.
(** The padded length is even, holds the input, and is exactly what the decomposition covers. *)
Theorem C47_padded : forall N diags Nd s Nn, (0 < Nd)%nat -> (diags < N / 2)%nat -> padded N diags Nd = (s, Nn) -> (0 < s /\ N <= Nn /\ Nn = 2 * (diags + s * Nd))%nat.
Proof. exact padded_ok. Qed.
Print Assumptions C47_padded.
Example C47_padded_ex : padded 103 10 15 = (3, 110)%nat. Proof. reflexivity. Qed.
Theorem C47_padded_py : forall N Nb s Nn, (0 < N)%nat -> padded_py N Nb = (s, Nn) -> (0 < s /\ N <= Nn /\ Nn = 2 * (s + s * Nb))%nat.
Proof. exact padded_py_ok. Qed.
Print Assumptions C47_padded_py.
Example C47_padded_py_ex : padded_py 103 15 = (4, 128)%nat. Proof. reflexivity. Qed.

(** ** the whole transforms, the submatrices holding the exact entries *)
Theorem C47_leg2cheb_partial : forall N D s diags c, Forall (fun d => (0 < d)%nat) D -> (0 < s)%nat ->
  (N <= 2 * (diags + s * get_number_of_blocks (List.length D) D))%nat -> same_function N (Leg2Cheb_fmm N D s diags false c) chebT c legL.
Proof.
  intros N D s diags c HD Hs HN x. rewrite <- l2c_expansion. apply rsum_ext. intros k Hk. f_equal. apply Leg2Cheb_fmm_val; assumption.
Qed.
Print Assumptions C47_leg2cheb_partial.
Theorem C47_leg2cheb_transpose_partial : forall N D s diags, Forall (fun d => (0 < d)%nat) D -> (0 < s)%nat ->
  (N <= 2 * (diags + s * get_number_of_blocks (List.length D) D))%nat -> adjoint N (Leg2Cheb_fmm N D s diags false) (Leg2Cheb_fmm N D s diags true).
Proof.
  intros N D s diags HD Hs HN c d. transitivity (rsum N (fun k => l2c_val N c k * d k)); [apply rsum_ext; intros k Hk; rewrite Leg2Cheb_fmm_val by assumption; reflexivity|].
  rewrite l2c_adjoint. apply rsum_ext. intros k Hk. rewrite Leg2Cheb_fmm_T_val by assumption. reflexivity.
Qed.
Print Assumptions C47_leg2cheb_transpose_partial.
Theorem C47_cheb2leg_partial : forall N D s diags v, Forall (fun d => (0 < d)%nat) D -> (0 < s)%nat -> (1 <= diags)%nat ->
  (N <= 2 * (diags + s * get_number_of_blocks (List.length D) D))%nat -> same_function N (Cheb2Leg_fmm N D s diags v) legL v chebT.
Proof.
  intros N D s diags v HD Hs Hd HN x. rewrite <- (c2l_expansion ((N - 1) / 2) N v x (half_lt N)). apply rsum_ext. intros k Hk. f_equal. apply Cheb2Leg_fmm_val; assumption.
Qed.
Print Assumptions C47_cheb2leg_partial.
Example C47_hypotheses_ex : (81 <= 2 * (5 + 4 * get_number_of_blocks (List.length [2; 3]%nat) [2; 3]%nat))%nat. Proof. cbv. lia. Qed.
