(** MatvecProofs.v -- row sums of matrices given by diagonals, and the banded kernels. *)
From Coq Require Import Reals ZArith List Arith Bool Lia Lra.
From Verif Require Import Base Fld SparseModel SparseSpec SparseProofs RPoly StencilModel StencilModel2 LegMatrixModel
  LegMatrixProofs6 ChebMatrixModel HelmholtzModel HelmholtzProofs HelmholtzProofs3 HelmholtzProofs4 BiharmonicModel MatvecModel MatvecSpec.
Import ListNotations.
Local Open Scope R_scope.

(** ** a row of the product from the diagonals *)
Definition term (M k : nat) (v : nat -> R) (kv : Z * dval RFld) : R :=
  let j := (Z.of_nat k + fst kv)%Z in
  if (Z.leb 0 j && Z.ltb j (Z.of_nat M))%bool then dget RFld (snd kv) (Nat.min k (Z.to_nat j)) * v (Z.to_nat j) else 0.
Definition terms (M k : nat) (v : nat -> R) (l : list (Z * dval RFld)) : R := fold_right (fun kv a => term M k v kv + a) 0 l.

Lemma lookup_notin l z : ~ In z (map fst l) -> lookup RFld l z = None.
Proof.
  induction l as [|[k d] l IH]; intros H; [reflexivity|]. cbn [lookup]. cbn [map fst In] in H.
  destruct (Z.eq_dec k z); [exfalso; apply H; auto|]. apply IH. tauto.
Qed.
Lemma rsum_at M (z : Z) (g : nat -> R) :
  rsum M (fun j => if Z.eq_dec z (Z.of_nat j) then g j else 0)
  = if (Z.leb 0 z && Z.ltb z (Z.of_nat M))%bool then g (Z.to_nat z) else 0.
Proof.
  induction M as [|M IH].
  - cbn [gsum]. destruct (Z.leb_spec 0 z); destruct (Z.ltb_spec z (Z.of_nat 0)); cbn [andb]; try reflexivity; lia.
  - cbn [gsum]. rewrite IH. destruct (Z.eq_dec z (Z.of_nat M)) as [->|Hne].
    + rewrite Nat2Z.id. destruct (Z.leb_spec 0 (Z.of_nat M)); [|lia].
      destruct (Z.ltb_spec (Z.of_nat M) (Z.of_nat M)); [lia|]. destruct (Z.ltb_spec (Z.of_nat M) (Z.of_nat (S M))); [|lia]. cbn [andb]. ring.
    + destruct (Z.leb_spec 0 z); cbn [andb]; [|ring].
      destruct (Z.ltb_spec z (Z.of_nat M)); destruct (Z.ltb_spec z (Z.of_nat (S M))); try lia; ring.
Qed.
Lemma row_terms r M sc l k v : NoDup (map fst l) ->
  rsum M (fun j => mat_entry RFld (mkSmat RFld r M sc l) k j * v j) = sc * terms M k v l.
Proof.
  unfold mat_entry. cbn [sm_items sm_scale].
  induction l as [|[z d] l IH]; intros Hn.
  - cbn [lookup terms fold_right]. rewrite rsum_zero; [ring|]. intros; rn; ring.
  - cbn [map fst] in Hn. inversion Hn as [|x y Hx Hy]. subst.
    cbn [terms fold_right]. fold (terms M k v l). rewrite Rmult_plus_distr_l, <- (IH Hy). clear IH.
    replace (sc * term M k v (z, d)) with
      (rsum M (fun j => if Z.eq_dec (Z.of_nat k + z) (Z.of_nat j) then sc * (dget RFld d (Nat.min k j) * v j) else 0)).
    + rewrite <- rsum_add. apply rsum_ext. intros j Hj. cbn [lookup].
      destruct (Z.eq_dec z (Z.of_nat j - Z.of_nat k)) as [E|E].
      * rewrite <- E. rewrite (lookup_notin l z Hx). destruct (Z.eq_dec (Z.of_nat k + z) (Z.of_nat j)); [|lia]. rn. ring.
      * destruct (Z.eq_dec (Z.of_nat k + z) (Z.of_nat j)); [lia|]. ring.
    + rewrite (rsum_at M (Z.of_nat k + z) (fun j => sc * (dget RFld d (Nat.min k j) * v j))). unfold term. cbn [fst snd].
      destruct (Z.leb 0 (Z.of_nat k + z) && Z.ltb (Z.of_nat k + z) (Z.of_nat M))%bool; ring.
Qed.
Lemma product_terms A c s v k : NoDup (map fst (sm_items RFld A)) ->
  product (smul RFld (scaled c A) s) v k = sm_scale RFld A * s * c * terms (sm_cols RFld A) k v (sm_items RFld A).
Proof.
  intros Hn. unfold product. cbn [smul scaled sm_cols].
  rewrite (rsum_ext _ _ (fun j => s * c * (mat_entry RFld A k j * v j))) by (intros; rewrite smul_entry, scaled_entry; ring).
  rewrite rsum_scal. destruct A as [r m sc l]. cbn [sm_cols sm_items sm_scale] in *. rewrite row_terms by exact Hn. ring.
Qed.

(** diagonal k + z inside or outside the matrix *)
Lemma term_in M k v z d j : (Z.of_nat j = Z.of_nat k + z)%Z -> (j < M)%nat -> term M k v (z, d) = dget RFld d (Nat.min k j) * v j.
Proof.
  intros H1 H2. unfold term. cbn [fst snd]. rewrite <- H1. destruct (Z.leb_spec 0 (Z.of_nat j)); [|lia].
  destruct (Z.ltb_spec (Z.of_nat j) (Z.of_nat M)); [|lia]. cbn [andb]. rewrite Nat2Z.id. reflexivity.
Qed.
Lemma term_out M k v z d : (Z.of_nat k + z < 0 \/ Z.of_nat M <= Z.of_nat k + z)%Z -> term M k v (z, d) = 0.
Proof.
  intros H. unfold term. cbn [fst snd]. destruct (Z.leb_spec 0 (Z.of_nat k + z)); cbn [andb]; [|reflexivity].
  destruct (Z.ltb_spec (Z.of_nat k + z) (Z.of_nat M)); [lia|reflexivity].
Qed.
(** diagonals above and below *)
Definition above (M k a : nat) (d v : nat -> R) : R := if Nat.ltb (k + a) M then d k * v (k + a)%nat else 0.
Definition below (M k a : nat) (d v : nat -> R) : R := if (Nat.leb a k && Nat.ltb (k - a) M)%bool then d (k - a)%nat * v (k - a)%nat else 0.
Lemma term_above M k v a d : term M k v (Z.of_nat a, d) = above M k a (dget RFld d) v.
Proof.
  unfold above. destruct (Nat.ltb_spec (k + a) M).
  - rewrite (term_in M k v _ d (k + a)) by lia. now rewrite Nat.min_l by lia.
  - apply term_out. lia.
Qed.
Lemma term_below M k v a d : (0 < a)%nat -> term M k v ((- Z.of_nat a)%Z, d) = below M k a (dget RFld d) v.
Proof.
  intros Ha. unfold below. destruct (Nat.leb_spec a k); cbn [andb].
  - destruct (Nat.ltb_spec (k - a) M).
    + rewrite (term_in M k v _ d (k - a)) by lia. now rewrite Nat.min_r by lia.
    + apply term_out. lia.
  - apply term_out. lia.
Qed.

Lemma scale_array_ok s c k : proper_scale s -> scale_array s c k = c k * s.
Proof.
  intros [->|H]; unfold scale_array.
  - destruct (Rlt_dec (1 / 10 ^ 8) (Rabs (1 - 1))); ring.
  - destruct (Rlt_dec (1 / 10 ^ 8) (Rabs (s - 1))); [reflexivity|lra].
Qed.

(** ** banded kernels *)
Ltac cases := repeat match goal with
  | |- context [Nat.eqb ?a ?b] => destruct (Nat.eqb_spec a b); try lia
  | |- context [Nat.leb ?a ?b] => destruct (Nat.leb_spec a b); try lia
  | |- context [Nat.ltb ?a ?b] => destruct (Nat.ltb_spec a b); try lia
  end; cbn [andb].
(** identify equal indices *)
Ltac idx := repeat match goal with
  | |- context [?f ?i] => is_var f; match type of f with nat -> R =>
      match goal with |- context [f ?j] => lazymatch i with j => fail | _ => replace (f i) with (f j) by (apply f_equal; lia) end end end
  end.

Lemma CDD_spec nud ld ud v : (1 <= nud)%nat -> exists b, CDD_matvec nud ld ud v = Some b /\
  forall k, b k = if Nat.ltb k (nud + 1) then below (nud + 1) k 1 ld v + above (nud + 1) k 1 ud v else 0.
Proof.
  intros H. unfold CDD_matvec. destruct (Nat.ltb_spec (nud + 1) 2); [lia|]. eexists. split; [reflexivity|].
  intros k. rewrite (for_up_pointwise _ _ (fun i _ => ud i * v (i + 1)%nat + ld (i - 1)%nat * v (i - 1)%nat)).
  unfold below, above, upd, zeros. cases; try ring; subst; idx; ring.
Qed.
Lemma BDN_spec M ld dd ud v : (4 <= M)%nat -> exists b, BDN_matvec M ld dd ud v = Some b /\
  forall k, b k = if Nat.ltb k M then below M k 2 ld v + dd k * v k + above M k 2 (fun _ => ud) v else 0.
Proof.
  intros H. unfold BDN_matvec. destruct (Nat.ltb_spec M 4); [lia|]. eexists. split; [reflexivity|].
  intros k. rewrite (for_up_pointwise _ _ (fun i _ => ud * v (i + 2)%nat + dd i * v i + ld (i - 2)%nat * v (i - 2)%nat)).
  unfold below, above, upd, zeros. cases; try ring; subst; idx; ring.
Qed.
Lemma Tridiagonal_spec M ld dd ud v : (4 <= M)%nat -> exists b, Tridiagonal_matvec M ld dd ud v = Some b /\
  forall k, b k = if Nat.ltb k M then below M k 2 ld v + dd k * v k + above M k 2 ud v else 0.
Proof.
  intros H. unfold Tridiagonal_matvec. destruct (Nat.ltb_spec M 4); [lia|]. eexists. split; [reflexivity|].
  intros k. unfold upd at 1 2.
  rewrite (for_up_pointwise _ _ (fun i _ => ld (i - 2)%nat * v (i - 2)%nat + dd i * v i + ud i * v (i + 2)%nat)).
  unfold below, above, upd, zeros. cases; try ring; subst; idx; ring.
Qed.
Lemma Pentadiagonal_spec M ldd ld dd ud udd v : (8 <= M)%nat -> exists b, Pentadiagonal_matvec M ldd ld dd ud udd v = Some b /\
  forall k, b k = if Nat.ltb k M then below M k 4 ldd v + below M k 2 ld v + dd k * v k + above M k 2 ud v + above M k 4 udd v else 0.
Proof.
  intros H. unfold Pentadiagonal_matvec. destruct (Nat.ltb_spec M 8); [lia|]. eexists. split; [reflexivity|].
  intros k. unfold upd at 1 2 3 4.
  rewrite (for_up_pointwise _ _ (fun i _ => ldd (i - 4)%nat * v (i - 4)%nat + ld (i - 2)%nat * v (i - 2)%nat
             + dd i * v i + ud i * v (i + 2)%nat + udd i * v (i + 4)%nat)).
  unfold below, above, upd, zeros. cases; try ring; subst; idx; ring.
Qed.
(** rows M + 1, columns at least M + 3 *)
Lemma CBD_spec M ld ud udd v : (1 <= M)%nat -> exists b, CBD_matvec M ld ud udd v = Some b /\
  forall k, b k = if Nat.ltb k (M + 1) then below (M + 3) k 1 ld v + above (M + 3) k 1 ud v + above (M + 3) k 3 udd v else 0.
Proof.
  intros H. unfold CBD_matvec. destruct (Nat.ltb_spec M 1); [lia|]. eexists. split; [reflexivity|].
  intros k. unfold upd at 1.
  rewrite (for_up_pointwise _ _ (fun i _ => ld (i - 1)%nat * v (i - 1)%nat + ud i * v (i + 1)%nat + udd i * v (i + 3)%nat)).
  unfold below, above, upd, zeros. cases; try ring; subst; idx; ring.
Qed.
(** columns M + 1, rows M + 3 *)
Lemma CDB_spec M lld ld ud v : (3 <= M)%nat -> exists b, CDB_matvec M lld ld ud v = Some b /\
  forall k, b k = if Nat.ltb k (M + 3) then below (M + 1) k 3 lld v + below (M + 1) k 1 ld v + above (M + 1) k 1 ud v else 0.
Proof.
  intros H. unfold CDB_matvec. destruct (Nat.ltb_spec M 3); [lia|]. eexists. split; [reflexivity|].
  intros k. unfold upd at 1.
  rewrite (for_up_pointwise _ _ (fun i _ => lld (i - 3)%nat * v (i - 3)%nat + ld (i - 1)%nat * v (i - 1)%nat)).
  rewrite (for_up_pointwise _ _ (fun i _ => lld (i - 3)%nat * v (i - 3)%nat + ld (i - 1)%nat * v (i - 1)%nat + ud i * v (i + 1)%nat)).
  rewrite (for_up_pointwise _ _ (fun i _ => ld (i - 1)%nat * v (i - 1)%nat + ud i * v (i + 1)%nat)).
  unfold below, above, upd, zeros. cases; try ring; subst; idx; ring.
Qed.
(** rows M + 2, columns M + 4 *)
Lemma BBD_spec M ld dd ud uud v : (2 <= M)%nat -> exists b, BBD_matvec M ld dd ud uud v = Some b /\
  forall k, b k = if Nat.ltb k (M + 2) then below (M + 4) k 2 (fun _ => ld) v + dd k * v k + above (M + 4) k 2 ud v + above (M + 4) k 4 uud v else 0.
Proof.
  intros H. unfold BBD_matvec. destruct (Nat.ltb_spec M 2); [lia|]. eexists. split; [reflexivity|].
  intros k.
  rewrite (for_up_pointwise _ _ (fun i _ => ld * v (i - 2)%nat + dd i * v i + ud i * v (i + 2)%nat)).
  rewrite (for_up_pointwise _ _ (fun i _ => ld * v (i - 2)%nat + dd i * v i + ud i * v (i + 2)%nat + uud i * v (i + 4)%nat)).
  unfold below, above, upd, zeros. cases; try ring; subst; idx; ring.
Qed.
