(** GaussRule.v -- Gauss rules for polynomials with a three-term recurrence: the Christoffel-Darboux
    sum, discrete orthogonality at the zeros, exactness, and existence of the zeros. *)
From Coq Require Import Reals List Arith Bool Lia Lra.
From Verif Require Import Base RPoly MatrixProofs BndModel BndProofs LHProofs LHProofs4.
Import ListNotations.
Local Open Scope R_scope.

Definition distinct_pts (n : nat) (x : nat -> R) : Prop := forall i j, (i < n)%nat -> (j < n)%nat -> i <> j -> x i <> x j.
Definition increasing_pts (n : nat) (x : nat -> R) : Prop := forall i j, (i < j)%nat -> (j < n)%nat -> x i < x j.
Lemma increasing_distinct n x : increasing_pts n x -> distinct_pts n x.
Proof.
  intros H i j Hi Hj N. destruct (Nat.lt_trichotomy i j) as [L|[L|L]]; [|lia|].
  - pose proof (H i j L Hj). lra.
  - pose proof (H j i L Hi). lra.
Qed.

(** ** a polynomial with as many roots as coefficients vanishes *)
Fixpoint pdivr (p : poly) (r : R) : poly := match p with [] => [] | _ :: q => match q with [] => [] | _ => padd [peval q r] (pX (pdivr q r)) end end.
Lemma divr p r : exists q, (length q <= pred (length p))%nat /\ forall x, peval p x = peval p r + (x - r) * peval q x.
Proof.
  induction p as [|a p (q & L & E)].
  - exists []. split; [cbn; lia|]. intros x. cbn. ring.
  - destruct p as [|b p].
    + exists []. split; [cbn; lia|]. intros x. cbn. ring.
    + set (p' := b :: p) in *. exists (peval p' r :: q). split; [cbn [length] in *; subst p'; cbn [length] in *; lia|].
      intros x. change (peval (a :: p') x) with (a + x * peval p' x). change (peval (a :: p') r) with (a + r * peval p' r).
      change (peval (peval p' r :: q) x) with (peval p' r + x * peval q x). rewrite (E x). ring.
Qed.
Lemma roots_zero : forall n p x, (length p <= n)%nat -> distinct_pts n x -> (forall i, (i < n)%nat -> peval p (x i) = 0) -> forall t, peval p t = 0.
Proof.
  induction n as [|n IH]; intros p x L D Z t.
  - destruct p; [reflexivity|cbn in L; lia].
  - destruct (divr p (x n)) as (q & Lq & E). rewrite E, (Z n) by lia.
    rewrite (IH q x); [ring|lia| |].
    + intros i j Hi Hj. apply D; lia.
    + intros i Hi. pose proof (E (x i)) as Ei. rewrite (Z i), (Z n) in Ei by lia.
      assert (x i - x n <> 0) by (pose proof (D i n ltac:(lia) ltac:(lia) ltac:(lia)); lra).
      assert ((x i - x n) * peval q (x i) = 0) as M by lra. apply Rmult_integral in M. tauto.
Qed.
Lemma roots_zero_d n p x : deglt n p -> distinct_pts n x -> (forall i, (i < n)%nat -> peval p (x i) = 0) -> forall t, peval p t = 0.
Proof.
  intros (q & L & E) D Z t. rewrite E. apply (roots_zero n q x); auto. intros i Hi. rewrite <- E. auto.
Qed.

(** ** finite products *)
Fixpoint rprod (n : nat) (f : nat -> R) : R := match n with O => 1 | S m => rprod m f * f m end.
Lemma rprod_0 n f i : (i < n)%nat -> f i = 0 -> rprod n f = 0.
Proof. induction n as [|n IH]; intros H Z; [lia|]. cbn. destruct (Nat.eq_dec i n) as [->|]; [rewrite Z; ring|rewrite IH by (auto; lia); ring]. Qed.
Lemma rprod_neq n f : (forall i, (i < n)%nat -> f i <> 0) -> rprod n f <> 0.
Proof. induction n as [|n IH]; intros H; cbn; [lra|]. apply Rmult_integral_contrapositive_currified; [apply IH; intros; apply H; lia|apply H; lia]. Qed.
Fixpoint proots (n : nat) (z : nat -> R) : poly := match n with O => [1] | S m => padd (pX (proots m z)) (pscale (- z m) (proots m z)) end.
Lemma peval_proots n z x : peval (proots n z) x = rprod n (fun i => x - z i).
Proof. induction n as [|n IH]; [cbn; ring|]. cbn [proots rprod]. rewrite peval_padd, peval_pX, peval_pscale, IH. ring. Qed.
Lemma deglt_proots n z : deglt (S n) (proots n z).
Proof.
  induction n as [|n IH]; [exists [1]; split; [cbn; lia|reflexivity]|]. cbn [proots].
  apply deglt_padd; [apply deglt_pX, IH|]. apply deglt_pscale. eapply deglt_mono; [|exact IH]. lia.
Qed.
(** a polynomial of degree n with n distinct roots is a multiple of the product *)
Lemma factor n p z : deglt (S n) p -> distinct_pts n z -> (forall i, (i < n)%nat -> peval p (z i) = 0) ->
  exists c, forall x, peval p x = c * rprod n (fun i => x - z i).
Proof.
  intros Dp D Z.
  assert (exists x0, forall i, (i < n)%nat -> z i < x0) as [x0 H0].
  { clear. induction n as [|n [y H]]; [exists 0; intros; lia|]. exists (Rmax y (z n) + 1). intros i Hi.
    pose proof (Rmax_l y (z n)). pose proof (Rmax_r y (z n)). destruct (Nat.eq_dec i n) as [->|]; [lra|]. pose proof (H i ltac:(lia)). lra. }
  assert (P0 : rprod n (fun i => x0 - z i) <> 0) by (apply rprod_neq; intros i Hi; pose proof (H0 i Hi); lra).
  exists (peval p x0 / rprod n (fun i => x0 - z i)). intros x.
  set (c := peval p x0 / rprod n (fun i => x0 - z i)).
  set (zz := fun i => if Nat.eqb i n then x0 else z i).
  pose proof (roots_zero_d (S n) (padd p (pscale (- c) (proots n z))) zz) as H.
  assert (peval (padd p (pscale (- c) (proots n z))) x = 0) as E.
  { apply H; clear H.
    - apply deglt_padd; [exact Dp|]. apply deglt_pscale, deglt_proots.
    - intros i j Hi Hj N. unfold zz. destruct (Nat.eqb_spec i n) as [->|Ni], (Nat.eqb_spec j n) as [->|Nj]; try lia.
      + pose proof (H0 j ltac:(lia)). lra.
      + pose proof (H0 i ltac:(lia)). lra.
      + apply D; lia.
    - intros i Hi. rewrite peval_padd, peval_pscale, peval_proots. unfold zz. destruct (Nat.eqb_spec i n) as [->|Ni].
      + unfold c. field. exact P0.
      + rewrite Z by lia. rewrite (rprod_0 n _ i) by (try lia; ring). ring. }
  rewrite peval_padd, peval_pscale, peval_proots in E. lra.
Qed.
(** signs of the product between the roots *)
Lemma pow_m1_S k : (-1) ^ S k = - (-1) ^ k. Proof. cbn [pow]. ring. Qed.
Lemma rprod_sign n z y i : (i <= n)%nat -> (forall j, (j < i)%nat -> z j < y) -> (forall j, (i <= j < n)%nat -> y < z j) ->
  0 < (-1) ^ (n - i) * rprod n (fun j => y - z j).
Proof.
  induction n as [|n IH]; intros Hi A B.
  - replace (0 - i)%nat with 0%nat by lia. cbn. lra.
  - destruct (Nat.eq_dec i (S n)) as [->|N].
    + rewrite Nat.sub_diag. cbn [pow]. rewrite Rmult_1_l. clear - A.
      assert (forall m, (m <= S n)%nat -> 0 < rprod m (fun j => y - z j)) as H; [|apply H; lia].
      induction m as [|m IHm]; intros Hm; cbn; [lra|]. pose proof (A m ltac:(lia)). apply Rmult_lt_0_compat; [apply IHm; lia|lra].
    + replace (S n - i)%nat with (S (n - i)) by lia. rewrite pow_m1_S. cbn [rprod].
      pose proof (IH ltac:(lia) A ltac:(intros; apply B; lia)) as P. pose proof (B n ltac:(lia)) as Q.
      replace (- (-1) ^ (n - i) * (rprod n (fun j => y - z j) * (y - z n))) with ((-1) ^ (n - i) * rprod n (fun j => y - z j) * (z n - y)) by ring.
      apply Rmult_lt_0_compat; lra.
Qed.
(** increasing sequences of all the roots are unique *)
Lemma roots_unique n p x y t0 : deglt (S n) p -> peval p t0 <> 0 -> increasing_pts n x -> increasing_pts n y ->
  (forall i, (i < n)%nat -> peval p (x i) = 0) -> (forall i, (i < n)%nat -> peval p (y i) = 0) -> forall i, (i < n)%nat -> x i = y i.
Proof.
  intros Dp N0. 
  assert (L : forall x y i, increasing_pts n x -> increasing_pts n y -> (forall i, (i < n)%nat -> peval p (x i) = 0) -> (forall i, (i < n)%nat -> peval p (y i) = 0) ->
    (i < n)%nat -> (forall j, (j < i)%nat -> x j = y j) -> ~ x i < y i).
  { clear x y. intros x y i Ix Iy Zx Zy Hi E Lt. apply N0.
    apply (roots_zero_d (S n) p (fun j => if Nat.eqb j n then x i else y j) Dp).
    - assert (Q : forall j, (j < n)%nat -> x i <> y j).
      { intros j Hj. destruct (Nat.lt_ge_cases j i) as [Lj|Gj].
        - rewrite <- E by exact Lj. pose proof (Ix j i Lj Hi). lra.
        - destruct (Nat.eq_dec i j) as [<-|]; [lra|]. pose proof (Iy i j ltac:(lia) Hj). lra. }
      intros a b Ha Hb Nab. destruct (Nat.eqb_spec a n) as [->|Na], (Nat.eqb_spec b n) as [->|Nb]; try lia.
      + apply Q. lia.
      + intros C. apply (Q a ltac:(lia)). auto.
      + apply (increasing_distinct n y Iy); lia.
    - intros j Hj. destruct (Nat.eqb_spec j n); [apply Zx; lia|apply Zy; lia]. }
  intros Ix Iy Zx Zy i. induction i as [i IH] using lt_wf_ind. intros Hi.
  destruct (Rtotal_order (x i) (y i)) as [A|[A|A]]; [|exact A|]; exfalso.
  - apply (L x y i); auto. intros j Hj. apply IH; lia.
  - apply (L y x i); auto. intros j Hj. symmetry. apply IH; lia.
Qed.

Lemma finite_choice n (Q : nat -> R -> Prop) : (forall i, (i < n)%nat -> exists y, Q i y) -> exists f, forall i, (i < n)%nat -> Q i (f i).
Proof.
  induction n as [|n IH]; intros H; [exists (fun _ => 0); intros; lia|].
  destruct IH as [f Hf]; [intros; apply H; lia|]. destruct (H n ltac:(lia)) as [y Hy].
  exists (fun i => if Nat.eqb i n then y else f i). intros i Hi. destruct (Nat.eqb_spec i n) as [->|]; [exact Hy|apply Hf; lia].
Qed.

(** ** the Lagrange argument: dual orthogonality gives discrete orthogonality *)
Section Dual.
  Variable P : nat -> poly.
  Variable N : nat.
  Hypothesis Dg : forall k, (k < N)%nat -> deglt N (P k).
  Hypothesis Indep : forall c, (forall x, rsum N (fun k => c k * peval (P k) x) = 0) -> forall k, (k < N)%nat -> c k = 0.
  Variables (x w h : nat -> R).
  Hypothesis Dx : distinct_pts N x.
  Hypothesis Hh : forall k, (k < N)%nat -> h k <> 0.
  Hypothesis Dual : forall i j, (i < N)%nat -> (j < N)%nat -> w i * rsum N (fun k => peval (P k) (x i) * peval (P k) (x j) / h k) = if Nat.eqb i j then 1 else 0.
  Lemma deglt_pcomb m c : (m <= N)%nat -> deglt N (pcomb m c P).
  Proof. induction m as [|m IH]; intros H; cbn; [exists []; split; [cbn; lia|reflexivity]|]. apply deglt_padd; [apply IH; lia|]. apply deglt_pscale, Dg. lia. Qed.
  Lemma dual_discrete k l : (k < N)%nat -> (l < N)%nat -> rsum N (fun i => w i * (peval (P k) (x i) * peval (P l) (x i))) = if Nat.eqb k l then h k else 0.
  Proof.
    intros Hk Hl.
    set (c := fun k => rsum N (fun i => w i * (peval (P k) (x i) * peval (P l) (x i))) / h k - if Nat.eqb k l then 1 else 0).
    assert (C : c k = 0).
    { apply Indep; [|exact Hk]. intros t. rewrite <- peval_pcomb. apply (roots_zero_d N (pcomb N c P) x); [apply deglt_pcomb; lia|exact Dx|].
      intros j Hj. rewrite peval_pcomb. unfold c.
      rewrite (sum_ext N _ (fun k => rsum N (fun i => peval (P l) (x i) * (w i * (peval (P k) (x i) * peval (P k) (x j) / h k))) - (if Nat.eqb k l then peval (P k) (x j) else 0))).
      2:{ intros q Hq. rewrite Rmult_minus_distr_r. f_equal; [|destruct (Nat.eqb q l); ring].
          rewrite (sum_ext N (fun i => peval (P l) (x i) * (w i * (peval (P q) (x i) * peval (P q) (x j) / h q))) (fun i => (peval (P q) (x j) / h q) * (w i * (peval (P q) (x i) * peval (P l) (x i))))).
          - rewrite sum_scal. unfold Rdiv. ring.
          - intros i _. unfold Rdiv. ring. }
      rewrite sum_sub, (sum_delta N l (fun k => peval (P k) (x j)) Hl), sum_swap.
      rewrite (sum_ext N _ (fun i => if Nat.eqb i j then peval (P l) (x i) else 0)).
      - rewrite (sum_delta N j (fun i => peval (P l) (x i)) Hj). ring.
      - intros i Hi. rewrite sum_scal, sum_scal, (Dual i j Hi Hj). destruct (Nat.eqb i j); ring. }
    unfold c in C. pose proof (Hh k Hk) as Z. set (S := rsum N _) in *. apply Rminus_diag_uniq in C.
    replace S with (S / h k * h k) by (field; exact Z). rewrite C. destruct (Nat.eqb k l); ring.
  Qed.
End Dual.

(** ** polynomials with a three-term recurrence *)
Section Three.
  Variable P : nat -> poly.
  Variables a b c h : nat -> R.
  Hypothesis P0 : forall x, peval (P 0) x = 1.
  Hypothesis P1 : forall x, peval (P 1) x = a 0%nat * x + b 0%nat.
  Hypothesis PS : forall n x, peval (P (S (S n))) x = (a (S n) * x + b (S n)) * peval (P (S n)) x - c (S n) * peval (P n) x.
  Hypothesis Ha : forall n, a n <> 0.
  Hypothesis Hh : forall n, 0 < h n.
  Hypothesis Hc : forall n, c (S n) * (a n * h n) = a (S n) * h (S n).

  Lemma t_deg n : deglt (S n) (P n).
  Proof.
    assert (deglt (S n) (P n) /\ deglt (S (S n)) (P (S n))) as [? ?]; [|assumption].
    induction n as [|n [IH1 IH2]].
    - split; [exists [1]; split; [cbn; lia|]; intros x; rewrite P0; cbn; ring|].
      exists [b 0%nat; a 0%nat]. split; [cbn; lia|]. intros x. rewrite P1. cbn. ring.
    - split; [exact IH2|].
      apply (deglt_ext _ (padd (padd (pscale (a (S n)) (pX (P (S n)))) (pscale (b (S n)) (P (S n)))) (pscale (- c (S n)) (P n)))).
      + intros x. rewrite !peval_padd, !peval_pscale, peval_pX, PS. ring.
      + apply deglt_padd; [apply deglt_padd|].
        * apply deglt_pscale, deglt_pX, IH2.
        * apply deglt_pscale. eapply deglt_mono; [|exact IH2]. lia.
        * apply deglt_pscale. eapply deglt_mono; [|exact IH1]. lia.
  Qed.
  Lemma t_deriv n x : peval (pderiv (P (S (S n)))) x = a (S n) * peval (P (S n)) x + (a (S n) * x + b (S n)) * peval (pderiv (P (S n))) x - c (S n) * peval (pderiv (P n)) x.
  Proof.
    rewrite (peq_deriv _ (padd (padd (pscale (a (S n)) (pX (P (S n)))) (pscale (b (S n)) (P (S n)))) (pscale (- c (S n)) (P n)))).
    - rewrite !pderiv_padd, !pderiv_pscale, pderiv_pX. ring.
    - intros y. rewrite !peval_padd, !peval_pscale, peval_pX, PS. ring.
  Qed.
  Lemma t_deriv0 x : peval (pderiv (P 0)) x = 0.
  Proof. rewrite (peq_deriv _ [1]); [cbn; ring|intros y; rewrite P0; cbn; ring]. Qed.
  Lemma t_deriv1 x : peval (pderiv (P 1)) x = a 0%nat.
  Proof. rewrite (peq_deriv _ [b 0%nat; a 0%nat]); [cbn; ring|intros y; rewrite P1; cbn; ring]. Qed.
  (** Christoffel-Darboux *)
  Lemma t_CD n x y : (x - y) * (a n * h n) * rsum (S n) (fun k => peval (P k) x * peval (P k) y / h k) = peval (P (S n)) x * peval (P n) y - peval (P n) x * peval (P (S n)) y.
  Proof.
    induction n as [|n IH].
    - cbn [gsum]. rewrite !P0, !P1. pose proof (Hh 0). field. lra.
    - change (rsum (S (S n)) ?f) with (rsum (S n) f + f (S n)). cbv beta. rewrite Rmult_plus_distr_l.
      pose proof (Hh n). pose proof (Hh (S n)). pose proof (Ha n).
      replace ((x - y) * (a (S n) * h (S n)) * rsum (S n) (fun k => peval (P k) x * peval (P k) y / h k)) with
        (c (S n) * ((x - y) * (a n * h n) * rsum (S n) (fun k => peval (P k) x * peval (P k) y / h k))) by (rewrite <- Hc; ring).
      rewrite IH, !PS. field. lra.
  Qed.
  Lemma t_CDc n x : a n * h n * rsum (S n) (fun k => peval (P k) x * peval (P k) x / h k) = peval (pderiv (P (S n))) x * peval (P n) x - peval (pderiv (P n)) x * peval (P (S n)) x.
  Proof.
    induction n as [|n IH].
    - cbn [gsum]. rewrite t_deriv0, t_deriv1, !P0. pose proof (Hh 0). field. lra.
    - change (rsum (S (S n)) ?f) with (rsum (S n) f + f (S n)). cbv beta. rewrite Rmult_plus_distr_l.
      pose proof (Hh n). pose proof (Hh (S n)). pose proof (Ha n).
      replace (a (S n) * h (S n) * rsum (S n) (fun k => peval (P k) x * peval (P k) x / h k)) with
        (c (S n) * (a n * h n * rsum (S n) (fun k => peval (P k) x * peval (P k) x / h k))) by (rewrite <- Hc; ring).
      rewrite IH, t_deriv, !PS. field. lra.
  Qed.
  Lemma t_sum_pos n x : 0 < rsum (S n) (fun k => peval (P k) x * peval (P k) x / h k).
  Proof.
    induction n as [|n IH].
    - cbn [gsum]. rewrite P0. pose proof (Hh 0). unfold Rdiv. rewrite Rplus_0_l, !Rmult_1_l. apply Rinv_0_lt_compat. lra.
    - change (rsum (S (S n)) ?f) with (rsum (S n) f + f (S n)). cbv beta.
      assert (0 <= peval (P (S n)) x * peval (P (S n)) x / h (S n)); [|lra].
      apply Rmult_le_pos; [apply Rle_0_sqr|]. pose proof (Hh (S n)). apply Rlt_le, Rinv_0_lt_compat. lra.
  Qed.
  (** the leading coefficients do not vanish *)
  Lemma t_lead n : exists l, l <> 0 /\ forall x, deriv_at n (P n) x = l.
  Proof.
    assert ((exists l, l <> 0 /\ forall x, deriv_at n (P n) x = l) /\ (exists l, l <> 0 /\ forall x, deriv_at (S n) (P (S n)) x = l)) as [? ?]; [|assumption].
    induction n as [|n [IH1 (l & Nl & IH2)]].
    - split; [exists 1; split; [lra|exact P0]|]. exists (a 0%nat). split; [apply Ha|]. exact t_deriv1.
    - split; [exists l; auto|]. exists (INR (S (S n)) * a (S n) * l). split.
      + apply Rmult_integral_contrapositive_currified; [apply Rmult_integral_contrapositive_currified; [apply not_0_INR; lia|apply Ha]|exact Nl].
      + intros x. rewrite (peq_dn _ _ (padd (padd (pscale (a (S n)) (pX (P (S n)))) (pscale (b (S n)) (P (S n)))) (pscale (- c (S n)) (P n)))).
        2:{ intros y. rewrite !peval_padd, !peval_pscale, peval_pX, PS. ring. }
        rewrite !deriv_at_padd, !deriv_at_pscale, deriv_at_pX. cbn [pred]. rewrite IH2.
        assert (Z : forall m q, deglt m q -> forall k, (m <= k)%nat -> deriv_at k q x = 0).
        { intros m q D k Hk. pose proof (deglt_dn k m q D) as (r & Lr & E). unfold deriv_at. rewrite E. replace (m - k)%nat with 0%nat in Lr by lia. destruct r; [reflexivity|cbn in Lr; lia]. }
        rewrite (Z _ _ (t_deg (S n)) (S (S n))), (Z _ _ (t_deg n) (S (S n))) by lia. ring.
  Qed.
  Lemma t_indep : forall N d, (forall x, rsum N (fun k => d k * peval (P k) x) = 0) -> forall k, (k < N)%nat -> d k = 0.
  Proof.
    induction N as [|N IH]; intros d H k Hk; [lia|].
    assert (dN : d N = 0).
    { destruct (t_lead N) as (l & Nl & L).
      assert (E : deriv_at N (pcomb (S N) d P) 0 = deriv_at N [] 0) by (apply peq_dn; intros y; rewrite peval_pcomb; cbn [peval]; apply H).
      rewrite deriv_at_nil, deriv_at_pcomb in E. change (rsum N (fun i => d i * deriv_at N (P i) 0) + d N * deriv_at N (P N) 0 = 0) in E.
      rewrite L, sum_0 in E.
      - rewrite Rplus_0_l in E. apply Rmult_integral in E. tauto.
      - intros i Hi. pose proof (deglt_dn N (S i) (P i) (t_deg i)) as (r & Lr & Er). unfold deriv_at. rewrite Er. replace (S i - N)%nat with 0%nat in Lr by lia. destruct r; [cbn; ring|cbn in Lr; lia]. }
    destruct (Nat.eq_dec k N) as [->|]; [exact dN|]. apply (IH d); [|lia]. intros x. specialize (H x).
    change (rsum N (fun k => d k * peval (P k) x) + d N * peval (P N) x = 0) in H. rewrite dN in H. lra.
  Qed.
  (** the polynomials span *)
  Lemma t_span : forall N p, deglt N p -> exists d, forall x, peval p x = rsum N (fun k => d k * peval (P k) x).
  Proof.
    induction N as [|N IH]; intros p (q & L & E).
    - exists (fun _ => 0). intros x. rewrite E. destruct q; [reflexivity|cbn in L; lia].
    - destruct (t_lead N) as (l & Nl & Ld).
      assert (exists s, forall x, deriv_at N p x = s) as [s Hs].
      { pose proof (deglt_dn N (S N) p (ex_intro _ q (conj L E))) as (r & Lr & Er). unfold deriv_at. replace (S N - N)%nat with 1%nat in Lr by lia.
        destruct r as [|s [|]]; cbn in Lr; try lia; [exists 0|exists s]; intros x; rewrite Er; cbn; ring. }
      (* subtract the leading part: what is left has degree below N *)
      set (r := padd p (pscale (- (s / l)) (P N))).
      assert (Dr : deglt (S N) r) by (apply deglt_padd; [exists q; auto|apply deglt_pscale, t_deg]).
      assert (Zr : forall x, deriv_at N r x = 0) by (intros x; unfold r; rewrite deriv_at_padd, deriv_at_pscale, Hs, Ld; field; exact Nl).
      assert (D' : deglt N r).
      { clearbody r. clear - Dr Zr. revert r Dr Zr. induction N as [|N IHN]; intros r (q & L & E) Z.
        - exists []. split; [cbn; lia|]. intros x. exact (Z x).
        - destruct q as [|q0 q]; [exists []; split; [cbn; lia|exact E]|].
          assert (Dq : deglt N (dfrom 1 q)).
          { apply IHN; [exists (dfrom 1 q); split; [rewrite length_dfrom; cbn in L; lia|reflexivity]|].
            intros x. rewrite <- (Z x). clear - E.
            assert (G : forall y, peval (dfrom 1 q) y = peval (pderiv r) y).
            { intros y. rewrite (peq_deriv _ _ E). cbn [pderiv]. rewrite peval_dfrom, peval_padd, peval_pX. cbn. ring. }
            rewrite (peq_dn N _ _ G x). unfold deriv_at. f_equal.
            assert (C : forall k s, dn k (pderiv s) = pderiv (dn k s)) by (induction k; intros s; cbn; [reflexivity|rewrite IHk; reflexivity]). rewrite C. reflexivity. }
          (* integrate *)
          destruct Dq as (u & Lu & Eu). exists (q0 :: prim_from 0 u).
          split. { cbn [length]. assert (LP : forall d s, length (prim_from d s) = length s) by (intros d s; revert d; induction s; intros; cbn; auto). rewrite LP. lia. }
          intros x. rewrite E. cbn [peval]. f_equal.
          assert (F : forall y, (fun t => t * peval q t - t * peval (prim_from 0 u) t) y = 0).
          { set (f := padd (pX q) (pscale (-1) (pprim u))).
            assert (Ff : forall y, peval (pderiv f) y = 0).
            { intros y. unfold f. rewrite pderiv_padd, pderiv_pscale, pderiv_pX, pderiv_pprim, <- Eu, peval_dfrom. cbn [INR]. ring. }
            assert (K : forall y, peval f y = peval f 0).
            { intros y. eapply (null_derivative_1 (peval f)) with (x := y) (y := 0). Unshelve. 2: { intros z; exists 0. rewrite <- (Ff z). apply pderiv_correct. }
              intros z. apply derive_pt_eq_0. rewrite <- (Ff z). apply pderiv_correct. }
            intros y. pose proof (K y) as Ky. unfold f, pprim in Ky. rewrite !peval_padd, !peval_pscale, !peval_pX in Ky. cbn [peval] in Ky. lra. }
          specialize (F x). cbv beta in F. lra. }
      destruct (IH r D') as [d Hd]. exists (fun k => if Nat.eqb k N then s / l else d k). intros x.
      change (peval p x = rsum N (fun k => (if Nat.eqb k N then s / l else d k) * peval (P k) x) + (if Nat.eqb N N then s / l else d N) * peval (P N) x).
      rewrite Nat.eqb_refl. rewrite (sum_ext N _ (fun k => d k * peval (P k) x)).
      + rewrite <- Hd. unfold r. rewrite peval_padd, peval_pscale. ring.
      + intros k Hk. destruct (Nat.eqb_spec k N); [lia|reflexivity].
  Qed.

  (** ** the Gauss rule *)
  Section Gauss.
    Variable N : nat.
    Variable x : nat -> R.
    Hypothesis Dx : distinct_pts (S N) x.
    Hypothesis Zx : forall i, (i < S N)%nat -> peval (P (S N)) (x i) = 0.
    Definition gauss_weight (i : nat) : R := a N * h N / (peval (pderiv (P (S N))) (x i) * peval (P N) (x i)).
    Lemma gauss_diag i : (i < S N)%nat -> peval (pderiv (P (S N))) (x i) * peval (P N) (x i) = a N * h N * rsum (S N) (fun k => peval (P k) (x i) * peval (P k) (x i) / h k).
    Proof. intros Hi. rewrite t_CDc, (Zx i Hi). ring. Qed.
    Lemma ah N' : a N' * h N' <> 0.
    Proof. apply Rmult_integral_contrapositive_currified; [apply Ha|pose proof (Hh N'); lra]. Qed.
    Lemma gauss_weight_eq i : (i < S N)%nat -> gauss_weight i = / rsum (S N) (fun k => peval (P k) (x i) * peval (P k) (x i) / h k).
    Proof. intros Hi. unfold gauss_weight. rewrite gauss_diag by exact Hi. pose proof (t_sum_pos N (x i)). pose proof (Ha N). pose proof (Hh N). field. split; [lra|split; lra]. Qed.
    Lemma gauss_weight_pos i : (i < S N)%nat -> 0 < gauss_weight i.
    Proof. intros Hi. rewrite gauss_weight_eq by exact Hi. apply Rinv_0_lt_compat, t_sum_pos. Qed.
    Lemma gauss_dual i j : (i < S N)%nat -> (j < S N)%nat -> gauss_weight i * rsum (S N) (fun k => peval (P k) (x i) * peval (P k) (x j) / h k) = if Nat.eqb i j then 1 else 0.
    Proof.
      intros Hi Hj. destruct (Nat.eqb_spec i j) as [<-|Nij].
      - rewrite gauss_weight_eq by exact Hi. pose proof (t_sum_pos N (x i)). field. lra.
      - pose proof (t_CD N (x i) (x j)) as E. rewrite !Zx, Rmult_0_l, Rmult_0_r, Rminus_0_r in E by assumption.
        apply Rmult_integral in E. destruct E as [E|E]; [|rewrite E; ring].
        apply Rmult_integral in E. destruct E as [E|E]; [pose proof (Dx i j Hi Hj Nij); lra|]. pose proof (ah N). contradiction.
    Qed.
    Lemma gauss_orth k l : (k < S N)%nat -> (l < S N)%nat -> rsum (S N) (fun i => gauss_weight i * (peval (P k) (x i) * peval (P l) (x i))) = if Nat.eqb k l then h k else 0.
    Proof.
      apply (dual_discrete P (S N)); auto.
      - intros q Hq. eapply deglt_mono; [|apply t_deg]. lia.
      - apply t_indep.
      - intros q _. pose proof (Hh q). lra.
      - apply gauss_dual.
    Qed.
    Lemma gauss_orth' k l : (k < S N)%nat -> (l <= S N)%nat -> rsum (S N) (fun i => gauss_weight i * (peval (P k) (x i) * peval (P l) (x i))) = if Nat.eqb k l then h k else 0.
    Proof.
      intros Hk Hl. destruct (Nat.eq_dec l (S N)) as [->|Nl]; [|apply gauss_orth; lia].
      destruct (Nat.eqb_spec k (S N)); [lia|]. apply sum_0. intros i Hi. rewrite Zx by exact Hi. ring.
    Qed.
  End Gauss.
  (** ** exactness *)
  Section Exact.
    Variable F : poly -> R -> Prop.
    Hypothesis Fext : forall p q v, (forall x, peval p x = peval q x) -> F p v -> F q v.
    Hypothesis Fadd : forall p q u v, F p u -> F q v -> F (padd p q) (u + v).
    Hypothesis Fscal : forall r p u, F p u -> F (pscale r p) (r * u).
    Hypothesis Forth : forall k l, F (pmul (P k) (P l)) (if Nat.eqb k l then h k else 0).
    Variables (m M : nat) (x w : nat -> R).
    Hypothesis Ho : forall k l, (k < m)%nat -> (l <= m)%nat -> rsum M (fun i => w i * (peval (P k) (x i) * peval (P l) (x i))) = if Nat.eqb k l then h k else 0.
    Definition quadr (p : poly) : R := rsum M (fun i => w i * peval p (x i)).
    Lemma quadr_ext p q : (forall t, peval p t = peval q t) -> quadr p = quadr q.
    Proof. intros E. apply sum_ext. intros i _. rewrite E. reflexivity. Qed.
    Lemma quadr_add p q : quadr (padd p q) = quadr p + quadr q.
    Proof. unfold quadr. rewrite <- sum_add. apply sum_ext. intros i _. rewrite peval_padd. ring. Qed.
    Lemma quadr_scal r p : quadr (pscale r p) = r * quadr p.
    Proof. unfold quadr. rewrite <- sum_scal. apply sum_ext. intros i _. rewrite peval_pscale. ring. Qed.
    Definition good (p : poly) : Prop := F p (quadr p).
    Lemma good_ext p q : (forall t, peval p t = peval q t) -> good p -> good q.
    Proof. intros E G. unfold good. rewrite <- (quadr_ext p q E). apply (Fext p); auto. Qed.
    Lemma good_add p q : good p -> good q -> good (padd p q).
    Proof. intros. unfold good. rewrite quadr_add. apply Fadd; auto. Qed.
    Lemma good_scal r p : good p -> good (pscale r p).
    Proof. intros. unfold good. rewrite quadr_scal. apply Fscal; auto. Qed.
    Lemma good_nil : (0 < m)%nat -> good [].
    Proof.
      intros Hm. apply (good_ext (pscale 0 (pmul (P 0) (P 0)))); [intros t; rewrite peval_pscale; cbn; ring|]. apply good_scal.
      unfold good. assert (E : quadr (pmul (P 0) (P 0)) = if Nat.eqb 0 0 then h 0%nat else 0).
      { rewrite <- Ho by lia. apply sum_ext. intros i _. rewrite peval_pmul. reflexivity. } rewrite E. apply Forth.
    Qed.
    Lemma good_PP k l : (k < m)%nat -> (l <= m)%nat -> good (pmul (P k) (P l)).
    Proof.
      intros Hk Hl. unfold good. assert (E : quadr (pmul (P k) (P l)) = if Nat.eqb k l then h k else 0); [|rewrite E; apply Forth].
      rewrite <- Ho by lia. apply sum_ext. intros i _. rewrite peval_pmul. reflexivity.
    Qed.
    Lemma good_comb n d (Q : nat -> poly) q : (0 < m)%nat -> (forall k, (k < n)%nat -> good (pmul (Q k) q)) -> good (pmul (pcomb n d Q) q).
    Proof.
      intros Hm G. induction n as [|n IH]; [apply good_nil, Hm|].
      apply (good_ext (padd (pmul (pcomb n d Q) q) (pscale (d n) (pmul (Q n) q)))).
      - intros t. cbn [pcomb]. rewrite peval_padd, peval_pscale, !peval_pmul, peval_padd, peval_pscale. ring.
      - apply good_add; [apply IH; intros; apply G; lia|apply good_scal, G; lia].
    Qed.
    Lemma good_prod p q : (0 < m)%nat -> deglt m p -> deglt (S m) q -> good (pmul p q).
    Proof.
      intros Hm Dp Dq. destruct (t_span m p Dp) as [d Ed]. destruct (t_span (S m) q Dq) as [e Ee].
      apply (good_ext (pmul (pcomb m d P) (pcomb (S m) e P))).
      - intros t. rewrite !peval_pmul, !peval_pcomb, Ed, Ee. reflexivity.
      - apply good_comb; [exact Hm|]. intros k Hk.
        apply (good_ext (pmul (pcomb (S m) e P) (P k))); [intros t; rewrite !peval_pmul; ring|].
        apply good_comb; [exact Hm|]. intros l Hl. apply (good_ext (pmul (P k) (P l))); [intros t; rewrite !peval_pmul; ring|]. apply good_PP; lia.
    Qed.
    Lemma pow_poly n : exists q, length q = S n /\ forall t, peval q t = t ^ n.
    Proof.
      induction n as [|n (q & L & E)]; [exists [1]; split; [reflexivity|intros t; cbn; ring]|].
      exists (pX q). split; [cbn; lia|]. intros t. rewrite peval_pX, E. reflexivity.
    Qed.
    Lemma split_poly n (p : poly) t : peval p t = peval (firstn n p) t + t ^ n * peval (skipn n p) t.
    Proof.
      revert p. induction n as [|n IH]; intros [|r p]; cbn [firstn skipn peval pow]; try ring.
      rewrite (IH p). ring.
    Qed.
    Theorem rule_exact p : (length p <= 2 * m)%nat -> F p (quadr p).
    Proof.
      intros L. destruct m as [|m'] eqn:Em.
      - (* nothing but the zero polynomial *)
        destruct p; [|cbn in L; lia].
        assert (E : quadr [] = 0 * (if Nat.eqb 0 0 then h 0%nat else 0)) by (unfold quadr; rewrite sum_0; [ring|intros i _; cbn; ring]). rewrite E.
        apply (Fext (pscale 0 (pmul (P 0) (P 0)))); [intros t; rewrite peval_pscale; cbn; ring|]. apply Fscal, Forth.
      - rewrite <- Em in *. assert (Hm : (0 < m)%nat) by lia.
        destruct (pow_poly m) as (q & Lq & Eq). change (good p).
        apply (good_ext (padd (pmul (firstn m p) [1]) (pmul (skipn m p) q))).
        + intros t. rewrite peval_padd, !peval_pmul, Eq, (split_poly m p t). cbn [peval]. ring.
        + apply good_add; apply good_prod; auto.
          * exists (firstn m p). split; [rewrite firstn_length; lia|reflexivity].
          * exists [1]. split; [cbn; lia|reflexivity].
          * exists (skipn m p). split; [rewrite skipn_length; lia|reflexivity].
          * exists q. split; [lia|reflexivity].
    Qed.
  End Exact.

  (** ** existence of the zeros, between two points where the values have the signs of x^n *)
  Section Zeros.
    Hypothesis Hap : forall n, 0 < a n.
    Variables (lo hi : R) (N : nat).
    Hypothesis Hlh : lo < hi.
    Hypothesis Hhi : forall k, (k <= S N)%nat -> 0 < peval (P k) hi.
    Hypothesis Hlo : forall k, (k <= S N)%nat -> 0 < (-1) ^ k * peval (P k) lo.
    Lemma c_pos n : 0 < c (S n).
    Proof.
      pose proof (Hap n). pose proof (Hh n). pose proof (Hap (S n)). pose proof (Hh (S n)). pose proof (Hc n) as E.
      assert (0 < a n * h n) by (apply Rmult_lt_0_compat; lra). assert (0 < a (S n) * h (S n)) by (apply Rmult_lt_0_compat; lra).
      destruct (Rle_or_lt (c (S n)) 0) as [C|C]; [|exact C]. exfalso.
      assert (c (S n) * (a n * h n) <= 0); [|lra]. rewrite <- (Rmult_0_l (a n * h n)). apply Rmult_le_compat_r; lra.
    Qed.
    Lemma bracket p u v : u < v -> peval p u * peval p v < 0 -> exists y, u < y < v /\ peval p y = 0.
    Proof.
      intros L S. destruct (IVT_cor (peval p) u v (continuity_peval p) (Rlt_le _ _ L) (Rlt_le _ _ S)) as (y & [A B] & E).
      exists y. split; [|exact E]. split.
      - destruct A as [A| ->]; [exact A|]. rewrite E in S. lra.
      - destruct B as [B| ->]; [exact B|]. rewrite E in S. lra.
    Qed.
    Lemma zeros n : (n <= N)%nat -> exists z, increasing_pts (S n) z /\ (forall i, (i < S n)%nat -> lo < z i < hi /\ peval (P (S n)) (z i) = 0 /\ 0 < (-1) ^ (n - i) * peval (P n) (z i)).
    Proof.
      induction n as [|n IH]; intros Hn.
      - assert (S : peval (P 1) lo * peval (P 1) hi < 0).
        { pose proof (Hlo 1 ltac:(lia)) as A. pose proof (Hhi 1 ltac:(lia)) as B. cbn [pow] in A.
          assert (0 < (- peval (P 1) lo) * peval (P 1) hi) by (apply Rmult_lt_0_compat; lra). lra. }
        destruct (bracket (P 1) lo hi Hlh S) as (y & L & E). exists (fun _ => y). split; [intros i j; lia|].
        intros i Hi. split; [exact L|]. split; [exact E|]. replace (0 - i)%nat with 0%nat by lia. rewrite P0. cbn. lra.
      - destruct (IH ltac:(lia)) as (z & Iz & Hz).
        set (e := fun i => match i with O => lo | S j => if Nat.eqb j (S n) then hi else z j end).
        assert (Ie : forall i, (i < S (S n))%nat -> e i < e (S i)).
        { intros [|i] Hi; unfold e.
          - change (Nat.eqb 0 (S n)) with false. apply Hz. lia.
          - destruct (Nat.eqb_spec i (S n)); [lia|]. destruct (Nat.eqb_spec (S i) (S n)) as [E|E]; [apply Hz; lia|apply Iz; lia]. }
        assert (Se : forall i, (i <= S (S n))%nat -> 0 < (-1) ^ (S (S n) - i) * peval (P (S (S n))) (e i)).
        { intros [|i] Hi; unfold e.
          - rewrite Nat.sub_0_r. apply Hlo. lia.
          - destruct (Nat.eqb_spec i (S n)) as [->|E].
            + rewrite Nat.sub_diag. cbn [pow]. rewrite Rmult_1_l. apply Hhi. lia.
            + destruct (Hz i ltac:(lia)) as (_ & Z & Sg). rewrite PS, Z.
              replace (S (S n) - S i)%nat with (S (n - i)) by lia. rewrite pow_m1_S.
              replace (- (-1) ^ (n - i) * ((a (S n) * z i + b (S n)) * 0 - c (S n) * peval (P n) (z i))) with (c (S n) * ((-1) ^ (n - i) * peval (P n) (z i))) by ring.
              apply Rmult_lt_0_compat; [apply c_pos|exact Sg]. }
        assert (Ex : forall i, (i < S (S n))%nat -> exists y, e i < y < e (S i) /\ peval (P (S (S n))) y = 0).
        { intros i Hi. apply bracket; [apply Ie, Hi|].
          pose proof (Se i ltac:(lia)) as A. pose proof (Se (S i) ltac:(lia)) as B.
          replace (S (S n) - i)%nat with (S (S (S n) - S i)) in A by lia. rewrite pow_m1_S in A.
          set (s := (-1) ^ (S (S n) - S i)) in *.
          assert (0 < (- s * peval (P (S (S n))) (e i)) * (s * peval (P (S (S n))) (e (S i)))) as Q by (apply Rmult_lt_0_compat; assumption).
          assert (s * s = 1) as Ss. { unfold s. clear. generalize (S (S n) - S i)%nat. induction n0 as [|k IHk]; [cbn; ring|]. rewrite pow_m1_S. lra. }
          replace (- s * peval (P (S (S n))) (e i) * (s * peval (P (S (S n))) (e (S i)))) with (- (s * s) * (peval (P (S (S n))) (e i) * peval (P (S (S n))) (e (S i)))) in Q by ring.
          rewrite Ss in Q. lra. }
        destruct (finite_choice _ _ Ex) as [y Hy]. exists y.
        assert (Me : forall i j, (i <= j)%nat -> (j <= S (S n))%nat -> e i <= e j).
        { intros i j Hij. induction Hij as [|j Hij IHj]; intros Hj; [lra|]. pose proof (IHj ltac:(lia)). pose proof (Ie j ltac:(lia)). lra. }
        split.
        + intros i j Hij Hj. destruct (Hy i ltac:(lia)) as [[_ A] _]. destruct (Hy j Hj) as [[B _] _]. pose proof (Me (S i) j ltac:(lia) ltac:(lia)). lra.
        + intros i Hi. destruct (Hy i Hi) as [[A B] Z]. split; [|split; [exact Z|]].
          * pose proof (Me 0%nat i ltac:(lia) ltac:(lia)) as C. pose proof (Me (S i) (S (S n)) ltac:(lia) ltac:(lia)) as D.
            assert (E0 : e 0%nat = lo) by reflexivity. assert (E1 : e (S (S n)) = hi) by (unfold e; rewrite Nat.eqb_refl; reflexivity). rewrite E0 in C. rewrite E1 in D. lra.
          * destruct (factor (S n) (P (S n)) z (t_deg (S n)) (increasing_distinct _ _ Iz)) as [cc Hcc]; [intros j Hj; apply Hz, Hj|].
            assert (Cp : 0 < cc).
            { pose proof (Hhi (S n) ltac:(lia)) as H1. rewrite Hcc in H1.
              pose proof (rprod_sign (S n) z hi (S n) (le_n _) (fun j Hj => proj2 (proj1 (Hz j Hj))) ltac:(intros; lia)) as H2. rewrite Nat.sub_diag in H2. cbn [pow] in H2. rewrite Rmult_1_l in H2.
              destruct (Rle_or_lt cc 0) as [C|C]; [|exact C]. exfalso.
              assert (cc * rprod (S n) (fun i0 => hi - z i0) <= 0); [|lra]. rewrite <- (Rmult_0_l (rprod (S n) (fun i0 => hi - z i0))). apply Rmult_le_compat_r; lra. }
            rewrite Hcc. replace ((-1) ^ (S n - i) * (cc * rprod (S n) (fun i0 => y i - z i0))) with (cc * ((-1) ^ (S n - i) * rprod (S n) (fun i0 => y i - z i0))) by ring.
            apply Rmult_lt_0_compat; [exact Cp|]. apply rprod_sign; [lia| |].
            -- intros j Hj. assert (z j = e (S j)) as -> by (unfold e; destruct (Nat.eqb_spec j (S n)); [lia|reflexivity]). pose proof (Me (S j) i ltac:(lia) ltac:(lia)). lra.
            -- intros j Hj. assert (z j = e (S j)) as -> by (unfold e; destruct (Nat.eqb_spec j (S n)); [lia|reflexivity]). pose proof (Me (S i) (S j) ltac:(lia) ltac:(lia)). lra.
    Qed.
  End Zeros.
End Three.
(** values grow to the right of some point *)
Lemma grow (f : nat -> R -> R) (a b c : nat -> R) : (forall x, f 0%nat x = 1) -> (forall x, f 1%nat x = a 0%nat * x + b 0%nat) ->
  (forall n x, f (S (S n)) x = (a (S n) * x + b (S n)) * f (S n) x - c (S n) * f n x) -> (forall n, 0 < a n) -> (forall n, 0 <= c (S n)) ->
  forall n, exists B, forall x, B <= x -> forall k, (k <= n)%nat -> 0 < f k x <= f (S k) x.
Proof.
  intros F0 F1 FS Ha Hc. induction n as [|n [B IH]].
  - exists ((1 - b 0%nat) / a 0%nat). intros x Hx k Hk. replace k with 0%nat by lia. rewrite F0, F1. pose proof (Ha 0%nat) as A.
    apply (Rmult_le_compat_l (a 0%nat)) in Hx; [|lra]. replace (a 0%nat * ((1 - b 0%nat) / a 0%nat)) with (1 - b 0%nat) in Hx by (field; lra). lra.
  - exists (Rmax B ((1 + c (S n) - b (S n)) / a (S n))). intros x Hx k Hk.
    pose proof (Rmax_l B ((1 + c (S n) - b (S n)) / a (S n))). pose proof (Rmax_r B ((1 + c (S n) - b (S n)) / a (S n))).
    destruct (Nat.eq_dec k (S n)) as [->|]; [|apply IH; [lra|lia]].
    destruct (IH x ltac:(lra) n (le_n _)) as [P Q]. split; [lra|]. rewrite FS. pose proof (Ha (S n)) as A. pose proof (Hc n) as C.
    assert (D : (1 + c (S n) - b (S n)) / a (S n) <= x) by lra.
    apply (Rmult_le_compat_l (a (S n))) in D; [|lra]. replace (a (S n) * ((1 + c (S n) - b (S n)) / a (S n))) with (1 + c (S n) - b (S n)) in D by (field; lra).
    assert (c (S n) * f n x <= c (S n) * f (S n) x) by (apply Rmult_le_compat_l; lra).
    assert ((1 + c (S n)) * f (S n) x <= (a (S n) * x + b (S n)) * f (S n) x) by (apply Rmult_le_compat_r; lra). lra.
Qed.
