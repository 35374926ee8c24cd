(** ChebMatrixProofs2.v -- basis functions as short sums of Chebyshev polynomials, and the entries
    of the matrices as double sums over the tables. *)
From Coq Require Import Reals Lra Lia List Arith ZArith.
From Verif Require Import Base Fld SparseModel SparseSpec RPoly StencilModel StencilModel2 StencilSpec StencilProofs StencilProofs6 StencilProofs7
  MatrixSpec MatrixProofs MatrixProofs2 LegMatrixModel LegMatrixSpec LegMatrixProofs LegMatrixProofs2 LegMatrixProofs5 LegMatrixProofs6
  ChebMatrixModel ChebMatrixSpec ChebMatrixProofs.
Import ListNotations.
Local Open Scope R_scope.

Fixpoint tsumf (l : list (nat * R)) (f : nat -> R) : R := match l with [] => 0 | (i, c) :: r => c * f i + tsumf r f end.
Fixpoint tpoly (l : list (nat * R)) (d : nat -> poly) : poly := match l with [] => [] | (i, c) :: r => padd (pscale c (d i)) (tpoly r d) end.
Lemma peval_tpoly l d x : peval (tpoly l d) x = tsumf l (fun i => peval (d i) x).
Proof. induction l as [|[i c] r IH]; cbn [tpoly tsumf]; [reflexivity|]. rewrite peval_padd, peval_pscale, IH. reflexivity. Qed.
Lemma tsumf_ext l f g : (forall i, In i (map fst l) -> f i = g i) -> tsumf l f = tsumf l g.
Proof.
  induction l as [|[i c] r IH]; intros H; cbn [tsumf]; [reflexivity|]. rewrite (H i) by (left; reflexivity).
  rewrite IH; [reflexivity|]. intros k Hk. apply H. right. exact Hk.
Qed.
Lemma cip_tpoly_r p l d : cip p (tpoly l d) = tsumf l (fun i => cip p (d i)).
Proof. induction l as [|[i c] r IH]; cbn [tpoly tsumf]; [apply cip_nil_r|]. rewrite cip_padd_r, cip_pscale_r, IH. reflexivity. Qed.
Lemma cip_tpoly_l p l d : cip (tpoly l d) p = tsumf l (fun i => cip (d i) p).
Proof. rewrite cip_comm, cip_tpoly_r. apply tsumf_ext. intros. apply cip_comm. Qed.

(** coefficients of basis function k *)
Definition cterms (sc : bool) (s : cspace) (k : nat) : list (nat * R) :=
  let x := INR k in
  match s with
  | CT => [(k, 1)]
  | CSD => [(k, 1); (S (S k), -1)]
  | CSN => [(k, 1); (S (S k), - (x / (x + 2)) ^ 2)]
  | CSB => [(k, 1); (S (S k), - (2 * x + 4) / (x + 3)); (S (S (S (S k))), (x + 1) / (x + 3))]
  | CLD => [(k, 1); (S k, 1)]
  | CHH => let g := if sc then / ((x + 1) * (x + 2)) else 1 in
           match k with
           | O => [(0%nat, 1 / 2 * g); (2%nat, - (1) / 2 * g)]
           | S O => [(1%nat, 1 / 4 * g); (3%nat, - (1) / 4 * g)]
           | S (S i) => [(i, - (1) / 4 * g); (k, 1 / 2 * g); (S (S k), - (1) / 4 * g)]
           end
  | CCN => match k with
           | O => [(0%nat, 1)]
           | S O => [(1%nat, 1); (3%nat, - (1) / 9)]
           | S (S O) => [(2%nat, 1 / 4); (4%nat, - (1) / 16)]
           | S (S i) => [(i, - (1) / INR i ^ 2); (k, 2 / x ^ 2); (S (S k), - (1) / (x + 2) ^ 2)]
           end
  | CMN => match k with
           | O => [(0%nat, 1)]
           | S O => [(1%nat, 3 / 2); (3%nat, - (1) / 3 / 2)]
           | S (S O) => [(2%nat, 1 / 3); (4%nat, - (1) / 4 / 3)]
           | S (S i) => [(i, - (1) / INR i / (x + 1)); (k, 2 / x / (x + 1)); (S (S k), - (1) / (x + 2) / (x + 1))]
           end
  end.

Ltac fin0 := repeat match goal with |- context [deriv_at ?m (chebT ?i) ?x] => let y := fresh "y" in set (y := deriv_at m (chebT i) x) in *; clearbody y end.
Lemma cspace_expands sc s N k m x : (k < cspace_dim s N)%nat ->
  deriv_at m (cspace_basis sc s N k) x = tsumf (cterms sc s k) (fun i => deriv_at m (chebT i) x).
Proof.
  intros Hk. destruct s; cbn [cspace_basis cspace_dim cspace_matrix] in *.
  - cbn [cterms tsumf]. ring.
  - rewrite basis_deriv by first [exact Hk | nodup]. cbn [chebyshev_ShenDirichlet sc_stencil stencil_sum sval cterms tsumf Nat.add]. ring.
  - rewrite basis_items by nodupZ. unfold heinrichs_matrix. cbn [sm_items sm_cols sm_scale].
    destruct k as [|[|k]]; [rewrite tri_row_low by lia | rewrite tri_row_low by lia | rewrite tri_row by lia];
    unfold arr; cbn [dget]; cbv beta zeta; tests; cbn [cterms tsumf]; fin0; destruct sc; rewrite ?S_INR; cbn [INR]; absx; field; neq0.
  - rewrite basis_deriv by first [exact Hk | nodup]. cbn [chebyshev_ShenBiharmonic sc_stencil stencil_sum sval cterms tsumf Nat.add]. ring.
  - rewrite basis_deriv by first [exact Hk | nodup]. cbn [chebyshev_ShenNeumann sc_stencil stencil_sum sval cterms tsumf Nat.add]. ring.
  - rewrite basis_items by nodupZ. unfold combined_shen_neumann_matrix. cbn [sm_items sm_cols sm_scale].
    destruct k as [|[|k]]; [rewrite tri_row_low by lia | rewrite tri_row_low by lia | rewrite tri_row by lia];
    [| |destruct k as [|k]];
    unfold arr; cbn [dget]; cbv beta zeta; unfold k1; tests; cbn [cterms tsumf]; fin0; rewrite ?S_INR; cbn [INR]; rewrite ?plus_INR, ?S_INR; cbn [INR]; absx; field; neq0.
  - rewrite basis_items by nodupZ. unfold mik_neumann_matrix. cbn [sm_items sm_cols sm_scale].
    destruct k as [|[|k]]; [rewrite tri_row_low by lia | rewrite tri_row_low by lia | rewrite tri_row by lia];
    [| |destruct k as [|k]];
    unfold arr; cbn [dget]; cbv beta zeta; unfold k1; tests; cbn [cterms tsumf]; fin0; rewrite ?S_INR; cbn [INR]; rewrite ?plus_INR, ?S_INR; cbn [INR]; absx; field; neq0.
  - rewrite basis_deriv by first [exact Hk | nodup]. cbn [chebyshev_LowerDirichlet sc_stencil stencil_sum sval cterms tsumf Nat.add]. ring.
Qed.

(** the indices of the terms are below N *)
Lemma cterms_bound sc s N k i : (k < cspace_dim s N)%nat -> In i (map fst (cterms sc s k)) -> (i < N)%nat.
Proof.
  intros Hk Hi. destruct s; cbn [cspace_dim] in Hk; try (cbn [cterms map fst In] in Hi; lia).
  - destruct k as [|[|k]]; cbn [cterms map fst In] in Hi; lia.
  - destruct k as [|[|[|k]]]; cbn [cterms map fst In] in Hi; lia.
  - destruct k as [|[|[|k]]]; cbn [cterms map fst In] in Hi; lia.
Qed.

(** the promised value *)
Definition cval (sc : bool) (N : nat) (s1 s2 : cspace) (q k j : nat) : R :=
  cip (cspace_basis sc s1 N k) (dn q (cspace_basis sc s2 N j)).
Definition csum (D : nat -> nat -> R) (sc : bool) (s1 s2 : cspace) (k j : nat) : R :=
  tsumf (cterms sc s1 k) (fun n => tsumf (cterms sc s2 j) (fun m => D n m)).
Lemma cval_sum sc N s1 s2 q k j : (k < cspace_dim s1 N)%nat -> (j < cspace_dim s2 N)%nat ->
  cval sc N s1 s2 q k j = csum (cD q) sc s1 s2 k j.
Proof.
  intros Hk Hj. unfold cval.
  rewrite (cip_ext _ (tpoly (cterms sc s1 k) chebT) _ (tpoly (cterms sc s2 j) (fun m => dn q (chebT m)))).
  - rewrite cip_tpoly_l. apply tsumf_ext. intros n _. apply cip_tpoly_r.
  - intros t. rewrite peval_tpoly. exact (cspace_expands sc s1 N k 0 (cos t) Hk).
  - intros t. rewrite peval_tpoly. exact (cspace_expands sc s2 N j q (cos t) Hj).
Qed.
Definition cvals (D : nat -> nat -> R) (sc : bool) (N : nat) (s1 s2 : cspace) (A : smat RFld) : Prop :=
  forall k j, (k < cspace_dim s1 N)%nat -> (j < cspace_dim s2 N)%nat -> mat_entry RFld A k j = csum D sc s1 s2 k j.
Lemma cvals_ok D sc N s1 s2 q A : sm_rows RFld A = cspace_dim s1 N -> sm_cols RFld A = cspace_dim s2 N ->
  (forall n m, (n < N)%nat -> (m < N)%nat -> cD q n m = D n m) -> cvals D sc N s1 s2 A -> centry_ok sc N (mkCE s1 s2 q A).
Proof.
  intros Hr Hc HD H. split; [exact Hr|]. split; [exact Hc|]. intros k j Hk Hj. cbn [ce_test ce_trial ce_triald ce_mat] in *.
  rewrite H by assumption.
  replace (csum D sc s1 s2 k j) with (cval sc N s1 s2 q k j); [apply cheb_inner_cip|].
  rewrite cval_sum by assumption. apply tsumf_ext. intros n Hn. apply tsumf_ext. intros m Hm.
  apply HD; [exact (cterms_bound sc s1 N k n Hk Hn)|exact (cterms_bound sc s2 N j m Hj Hm)].
Qed.

(** ** entries of dense matrices *)
Lemma in_zarange a b z : In z (zarange a b) <-> (a <= z < b)%Z /\ Z.even (z - a) = true.
Proof.
  unfold zarange. rewrite in_map_iff. pose proof (Z.div_mod (b - a + 1) 2 ltac:(lia)) as E. pose proof (Z.mod_pos_bound (b - a + 1) 2 ltac:(lia)).
  split.
  - intros (i & <- & Hi). apply in_seq in Hi. split; [lia|]. apply Z.even_spec. exists (Z.of_nat i). lia.
  - intros (H1 & H2). apply Z.even_spec in H2. destruct H2 as [i Hi]. exists (Z.to_nat i). split; [lia|]. apply in_seq. lia.
Qed.
Lemma fromkeys_entry r c a b g k j : mat_entry RFld (dmat r c (fromkeys (zarange a b) g)) k j =
  let z := (Z.of_nat j - Z.of_nat k)%Z in
  if (Z.leb a z && Z.ltb z b && Z.even (z - a))%bool then dget RFld (g z) (Nat.min k j) else 0.
Proof.
  cbv zeta. set (z := (Z.of_nat j - Z.of_nat k)%Z). unfold mat_entry, dmat, fromkeys. cbn [sm_items sm_scale]. fold z.
  destruct (Z.leb_spec a z); [destruct (Z.ltb_spec z b); [destruct (Z.even (z - a)) eqn:E|]|]; cbn [andb].
  - rewrite (lookup_map_in (fun z => z) g); [rn; ring|trivial|]. apply in_zarange. split; [lia|exact E].
  - rewrite (lookup_map_out (fun z => z) g); [reflexivity|]. intros x Hx. apply in_zarange in Hx. destruct Hx as [Hx1 Hx2]. congruence.
  - rewrite (lookup_map_out (fun z => z) g); [reflexivity|]. intros x Hx. apply in_zarange in Hx. lia.
  - rewrite (lookup_map_out (fun z => z) g); [reflexivity|]. intros x Hx. apply in_zarange in Hx. lia.
Qed.

Lemma odd1_0 n m : Nat.even (n + m) = true -> odd1 n m = 0.
Proof. intros H. apply Nat.even_spec in H. destruct H as [i H]. unfold odd1. rewrite H, m1_even. lra. Qed.
Lemma odd1_1 n m : Nat.even (n + m) = false -> odd1 n m = 1.
Proof.
  intros H. assert (O : Nat.odd (n + m) = true) by (unfold Nat.odd; rewrite H; reflexivity). apply Nat.odd_spec in O. destruct O as [i O].
  unfold odd1. rewrite O, Nat.add_1_r, m1_odd. lra.
Qed.
Lemma even1_1 n m : Nat.even (n + m) = true -> even1 n m = 1.
Proof. intros H. pose proof (odd1_0 n m H). unfold odd1, even1 in *. lra. Qed.
Lemma even1_0 n m : Nat.even (n + m) = false -> even1 n m = 0.
Proof. intros H. pose proof (odd1_1 n m H). unfold odd1, even1 in *. lra. Qed.
