(** EvalProofs3.v -- complex kernels and the Python method of EvalModel2. *)
From Coq Require Import Arith ZArith Reals List Bool Lia Lra.
From Verif Require Import Base SparseModel EvalModel2 EvalSpec2 EvalProofs2.
Import ListNotations.
Local Open Scope R_scope.

Lemma accC_same f g h b j : accC f h -> accC g h -> f b j = g b j.
Proof. intros Hf Hg. rewrite (Hf b j), (Hg b j). reflexivity. Qed.
Lemma eval2_c_acc npts n0 n1 u P0 P1 :
  accC (fun b => eval2_c npts n0 n1 b u P0 P1) (fun j => if Nat.ltb j npts then series2 n0 n1 u (P0 j) (P1 j) else c0).
Proof. apply (nest2_C npts n0 n1 (fun k l i => cmul (cmul (u k l) (P0 i k)) (P1 i l))). reflexivity. Qed.
Lemma eval3_c_acc npts n0 n1 n2 u P0 P1 P2 :
  accC (fun b => eval3_c npts n0 n1 n2 b u P0 P1 P2) (fun j => if Nat.ltb j npts then series3 n0 n1 n2 u (P0 j) (P1 j) (P2 j) else c0).
Proof. apply (nest3_C npts n0 n1 n2 (fun k l m i => cmul (cmul (cmul (u k l m) (P0 i k)) (P1 i l)) (P2 i m))). reflexivity. Qed.

(** low memory complex kernels *)
Lemma lm_step (b : nat -> Cx) i (t : Cx) (a c : R) : cre t = a -> cim t = c ->
  upd b i (mkCx (cre (b i) + a) (cim (b i) + c)) = upd b i (cadd (b i) t).
Proof. intros <- <-. reflexivity. Qed.
Lemma lm2_cc0_acc npts n0 n1 u x0 x1 w0 w1 :
  accC (fun b => lm2_cc0 npts n0 n1 b u x0 x1 w0 w1)
    (fun j => if Nat.ltb j npts then series2 n0 n1 u (fun k => cis (w0 k * x0 j)) (fun l => cis (w1 l * x1 j)) else c0).
Proof.
  apply (nest2_C npts n0 n1 (fun k l i => cmul (cmul (u k l) (cis (w0 k * x0 i))) (cis (w1 l * x1 i)))).
  intros k l i b. rewrite <- cmul_assoc, <- cis_add. apply lm_step; reflexivity.
Qed.
Lemma lm2_rc0_acc npts n0 n1 u phi x0 x1 w1 :
  accC (fun b => lm2_rc0 npts n0 n1 b u phi x0 x1 w1)
    (fun j => if Nat.ltb j npts then series2 n0 n1 u (fun k => cofR (phi k (x0 j))) (fun l => cis (w1 l * x1 j)) else c0).
Proof.
  apply (nest2_C npts n0 n1 (fun k l i => cmul (cmul (u k l) (cofR (phi k (x0 i)))) (cis (w1 l * x1 i)))).
  intros k l i b. apply lm_step; cbn; ring.
Qed.
Lemma nest2_C_swap npts n0 n1 (h : nat -> nat -> nat -> Cx) body :
  (forall k l i b, body k l i b = upd b i (cadd (b i) (h k l i))) ->
  accC (for_up n1 0 (fun l b => for_up n0 0 (fun k b => for_up npts 0 (body k l) b) b))
       (fun j => if Nat.ltb j npts then csum n0 (fun k => csum n1 (fun l => h k l j)) else c0).
Proof.
  intros Hb. eapply accC_ext; [apply (nest2_C npts n1 n0 (fun l k => h k l) (fun l k => body k l)); intros; apply Hb|].
  intros j. cbv beta. destruct (Nat.ltb j npts); [apply csum_swap|reflexivity].
Qed.
Lemma lm2_cr0_acc npts n0 n1 u phi x0 x1 w0 :
  accC (fun b => lm2_cr0 npts n0 n1 b u phi x0 x1 w0)
    (fun j => if Nat.ltb j npts then series2 n0 n1 u (fun k => cis (w0 k * x0 j)) (fun l => cofR (phi l (x1 j))) else c0).
Proof.
  apply (nest2_C_swap npts n0 n1 (fun k l i => cmul (cmul (u k l) (cis (w0 k * x0 i))) (cofR (phi l (x1 i)))) (fun k l i b => _)).
  intros k l i b. apply lm_step; cbn; ring.
Qed.
Lemma lm3_rcc0_acc npts n0 n1 n2 u phi x0 x1 x2 w1 w2 :
  accC (fun b => lm3_rcc0 npts n0 n1 n2 b u phi x0 x1 x2 w1 w2)
    (fun j => if Nat.ltb j npts then series3 n0 n1 n2 u (fun k => cofR (phi k (x0 j))) (fun l => cis (w1 l * x1 j)) (fun m => cis (w2 m * x2 j)) else c0).
Proof.
  apply (nest3_C npts n0 n1 n2 (fun k l m i => cmul (cmul (cmul (u k l m) (cofR (phi k (x0 i)))) (cis (w1 l * x1 i))) (cis (w2 m * x2 i)))).
  intros k l m i b. rewrite <- cmul_assoc, <- cis_add. apply lm_step; cbn; ring.
Qed.
Lemma lm3_crc0_acc npts n0 n1 n2 u phi x0 x1 x2 w0 w2 :
  accC (fun b => lm3_crc0 npts n0 n1 n2 b u phi x0 x1 x2 w0 w2)
    (fun j => if Nat.ltb j npts then series3 n0 n1 n2 u (fun k => cis (w0 k * x0 j)) (fun l => cofR (phi l (x1 j))) (fun m => cis (w2 m * x2 j)) else c0).
Proof.
  eapply accC_ext.
  - apply (nest3_C npts n1 n0 n2 (fun l k m i => cmul (cmul (cmul (u k l m) (cis (w0 k * x0 i))) (cofR (phi l (x1 i)))) (cis (w2 m * x2 i))) (fun l k m i b => _)).
    intros l k m i b. apply lm_step; rewrite (cos_plus (w0 k * x0 i)), (sin_plus (w0 k * x0 i)); cbn; ring.
  - intros j. cbv beta. destruct (Nat.ltb j npts); [|reflexivity]. apply csum_swap.
Qed.
Lemma lm3_ccr0_acc npts n0 n1 n2 u phi x0 x1 x2 w0 w1 :
  accC (fun b => lm3_ccr0 npts n0 n1 n2 b u phi x0 x1 x2 w0 w1)
    (fun j => if Nat.ltb j npts then series3 n0 n1 n2 u (fun k => cis (w0 k * x0 j)) (fun l => cis (w1 l * x1 j)) (fun m => cofR (phi m (x2 j))) else c0).
Proof.
  eapply accC_ext.
  - apply (nest3_C npts n2 n0 n1 (fun m k l i => cmul (cmul (cmul (u k l m) (cis (w0 k * x0 i))) (cis (w1 l * x1 i))) (cofR (phi m (x2 i)))) (fun m k l i b => _)).
    intros m k l i b. apply lm_step; rewrite (cos_plus (w0 k * x0 i)), (sin_plus (w0 k * x0 i)); cbn; ring.
  - intros j. cbv beta. destruct (Nat.ltb j npts); [|reflexivity]. unfold series3. rewrite csum_swap. apply csum_ext. intros k _. apply csum_swap.
Qed.
(** lm3_ccc0 overwrites b *)
Lemma pair_loop n (body : nat -> R * R -> R * R) (h : nat -> Cx) :
  (forall m s, body m s = (fst s + cre (h m), snd s + cim (h m))) ->
  forall s, for_up n 0 body s = (fst s + cre (csum n h), snd s + cim (csum n h)).
Proof.
  intros H s. induction n as [|n IH]; [destruct s; cbn; f_equal; ring|]. rewrite for_up_snoc, H, IH, csum_S. cbn [fst snd cadd cre cim Nat.add]. f_equal; ring.
Qed.
Lemma lm3_ccc0_run npts n0 n1 n2 b u x0 x1 x2 w0 w1 w2 j : (j < npts)%nat ->
  lm3_ccc0 npts n0 n1 n2 b u x0 x1 x2 w0 w1 w2 j
  = series3 n0 n1 n2 u (fun k => cis (w0 k * x0 j)) (fun l => cis (w1 l * x1 j)) (fun m => cis (w2 m * x2 j)).
Proof.
  intros Hj. unfold lm3_ccc0. set (S3 := fun i => series3 n0 n1 n2 u (fun k => cis (w0 k * x0 i)) (fun l => cis (w1 l * x1 i)) (fun m => cis (w2 m * x2 i))).
  set (body := fun (i : nat) (b : nat -> Cx) => _).
  assert (forall i b, body i b = upd b i (S3 i)) as HB.
  { intros i b'. unfold body. rewrite (pair_loop n0 _ (fun k => csum n1 (fun l => csum n2 (fun m => cmul (cmul (cmul (u k l m) (cis (w0 k * x0 i))) (cis (w1 l * x1 i))) (cis (w2 m * x2 i)))))).
    - cbn [fst snd]. rewrite !Rplus_0_l. f_equal. apply cx_eq; reflexivity.
    - intros k s. apply (pair_loop n1 _ (fun l => csum n2 (fun m => cmul (cmul (cmul (u k l m) (cis (w0 k * x0 i))) (cis (w1 l * x1 i))) (cis (w2 m * x2 i))))).
      intros l s'. apply (pair_loop n2 _ (fun m => cmul (cmul (cmul (u k l m) (cis (w0 k * x0 i))) (cis (w1 l * x1 i))) (cis (w2 m * x2 i)))).
      intros m [p q]. cbn [fst snd]. rewrite <- !cmul_assoc, <- !cis_add. replace (w0 k * x0 i + (w1 l * x1 i + w2 m * x2 i)) with (w0 k * x0 i + w1 l * x1 i + w2 m * x2 i) by ring. reflexivity. }
  assert (forall c, (c <= npts)%nat -> forall i, (i < c)%nat -> for_up c 0 body b i = S3 i) as H.
  { induction c as [|c IH]; intros Hc i Hi; [lia|]. rewrite for_up_snoc, HB. cbn [Nat.add]. destruct (Nat.eq_dec i c) as [->|Hic]; [apply upd_same|rewrite upd_other by exact Hic; apply IH; lia]. }
  apply (H npts); lia.
Qed.

(** staged kernel *)
Lemma staged_c npts n0 n1 n2 (u : nat -> nat -> nat -> Cx) (P2 : nat -> nat -> Cx) i k l : (i < npts)%nat -> (k < n0)%nat -> (l < n1)%nat ->
  for_up npts 0 (fun i c => for_up n0 0 (fun k c => for_up n1 0 (fun l c => for_up n2 0 (fun m c =>
    upd c i (upd2 (c i) k l (cadd (c i k l) (cmul (u k l m) (P2 i m))))) c) c) c) (fun _ _ _ => c0) i k l
  = csum n2 (fun m => cmul (u k l m) (P2 i m)).
Proof.
  intros Hi Hk Hl.
  pose (acc3 := fun (body : (nat -> nat -> nat -> Cx) -> nat -> nat -> nat -> Cx) (g : nat -> nat -> nat -> Cx) => forall c i k l, body c i k l = cadd (c i k l) (g i k l)).
  assert (forall n body g, (forall q, (q < n)%nat -> acc3 (body q) (g q)) -> acc3 (for_up n 0 body) (fun i k l => csum n (fun q => g q i k l))) as L.
  { intros n body g. induction n as [|n IH]; intros H c i' k' l'; [cbn; now rewrite cadd_0_r|]. rewrite for_up_snoc. rewrite (H n) by lia. rewrite IH by (intros; apply H; lia). rewrite csum_S. now rewrite cadd_assoc. }
  assert (forall i0 k0 l0 (v : Cx), acc3 (fun c => upd c i0 (upd2 (c i0) k0 l0 (cadd (c i0 k0 l0) v)))
     (fun i k l => if Nat.eqb i i0 then if Nat.eqb k k0 then if Nat.eqb l l0 then v else c0 else c0 else c0)) as U.
  { intros i0 k0 l0 v c i' k' l'. unfold upd, upd2. destruct (Nat.eqb_spec i' i0) as [->|]; [|now rewrite cadd_0_r].
    destruct (Nat.eqb_spec k' k0) as [->|]; [|now rewrite cadd_0_r]. destruct (Nat.eqb_spec l' l0) as [->|]; [reflexivity|now rewrite cadd_0_r]. }
  set (body := for_up npts 0 _).
  assert (acc3 body (fun i k l => csum npts (fun i0 => csum n0 (fun k0 => csum n1 (fun l0 => csum n2 (fun m => if Nat.eqb i i0 then if Nat.eqb k k0 then if Nat.eqb l l0 then cmul (u k0 l0 m) (P2 i0 m) else c0 else c0 else c0)))))) as H.
  { apply L. intros i0 _. apply L. intros k0 _. apply L. intros l0 _. apply L. intros m _. apply U. }
  rewrite (H _ i k l), cadd_0_l.
  rewrite (csum_ext npts _ (fun i0 => if Nat.eqb i i0 then csum n2 (fun m => cmul (u k l m) (P2 i0 m)) else c0)).
  - rewrite (csum_pick npts (fun i0 => csum n2 (fun m => cmul (u k l m) (P2 i0 m)))). rewrite (proj2 (Nat.ltb_lt i npts) Hi). reflexivity.
  - intros i0 _. destruct (Nat.eqb i i0); [|apply csum_zero; intros; apply csum_zero; intros; apply csum_zero; reflexivity].
    rewrite (csum_ext n0 _ (fun k0 => if Nat.eqb k k0 then csum n2 (fun m => cmul (u k0 l m) (P2 i0 m)) else c0)).
    + rewrite (csum_pick n0 (fun k0 => csum n2 (fun m => cmul (u k0 l m) (P2 i0 m)))). rewrite (proj2 (Nat.ltb_lt k n0) Hk). reflexivity.
    + intros k0 _. destruct (Nat.eqb k k0); [|apply csum_zero; intros; apply csum_zero; reflexivity].
      rewrite (csum_ext n1 _ (fun l0 => if Nat.eqb l l0 then csum n2 (fun m => cmul (u k0 l0 m) (P2 i0 m)) else c0)).
      * rewrite (csum_pick n1 (fun l0 => csum n2 (fun m => cmul (u k0 l0 m) (P2 i0 m)))). rewrite (proj2 (Nat.ltb_lt l n1) Hl). reflexivity.
      * intros l0 _. destruct (Nat.eqb l l0); [reflexivity|apply csum_zero; reflexivity].
Qed.
Lemma staged_c2 npts n0 n1 (c : nat -> nat -> nat -> Cx) (P1 : nat -> nat -> Cx) i k : (i < npts)%nat -> (k < n0)%nat ->
  for_up npts 0 (fun i c2 => for_up n0 0 (fun k c2 => for_up n1 0 (fun l c2 =>
    upd2 c2 i k (cadd (c2 i k) (cmul (c i k l) (P1 i l)))) c2) c2) (fun _ _ => c0) i k
  = csum n1 (fun l => cmul (c i k l) (P1 i l)).
Proof.
  intros Hi Hk.
  pose (acc2 := fun (body : (nat -> nat -> Cx) -> nat -> nat -> Cx) (g : nat -> nat -> Cx) => forall c i k, body c i k = cadd (c i k) (g i k)).
  assert (forall n body g, (forall q, (q < n)%nat -> acc2 (body q) (g q)) -> acc2 (for_up n 0 body) (fun i k => csum n (fun q => g q i k))) as L.
  { intros n body g. induction n as [|n IH]; intros H c' i' k'; [cbn; now rewrite cadd_0_r|]. rewrite for_up_snoc. rewrite (H n) by lia. rewrite IH by (intros; apply H; lia). rewrite csum_S. now rewrite cadd_assoc. }
  assert (forall i0 k0 (v : Cx), acc2 (fun c => upd2 c i0 k0 (cadd (c i0 k0) v))
     (fun i k => if Nat.eqb i i0 then if Nat.eqb k k0 then v else c0 else c0)) as U.
  { intros i0 k0 v c' i' k'. unfold upd2. destruct (Nat.eqb_spec i' i0) as [->|]; [|now rewrite cadd_0_r].
    destruct (Nat.eqb_spec k' k0) as [->|]; [reflexivity|now rewrite cadd_0_r]. }
  set (body := for_up npts 0 _).
  assert (acc2 body (fun i k => csum npts (fun i0 => csum n0 (fun k0 => csum n1 (fun l0 => if Nat.eqb i i0 then if Nat.eqb k k0 then cmul (c i0 k0 l0) (P1 i0 l0) else c0 else c0))))) as H.
  { apply L. intros i0 _. apply L. intros k0 _. apply L. intros l0 _. apply U. }
  rewrite (H _ i k), cadd_0_l.
  rewrite (csum_ext npts _ (fun i0 => if Nat.eqb i i0 then csum n1 (fun l => cmul (c i0 k l) (P1 i0 l)) else c0)).
  - rewrite (csum_pick npts (fun i0 => csum n1 (fun l => cmul (c i0 k l) (P1 i0 l)))). rewrite (proj2 (Nat.ltb_lt i npts) Hi). reflexivity.
  - intros i0 _. destruct (Nat.eqb i i0); [|apply csum_zero; intros; apply csum_zero; reflexivity].
    rewrite (csum_ext n0 _ (fun k0 => if Nat.eqb k k0 then csum n1 (fun l => cmul (c i0 k0 l) (P1 i0 l)) else c0)).
    + rewrite (csum_pick n0 (fun k0 => csum n1 (fun l => cmul (c i0 k0 l) (P1 i0 l)))). rewrite (proj2 (Nat.ltb_lt k n0) Hk). reflexivity.
    + intros k0 _. destruct (Nat.eqb k k0); [reflexivity|apply csum_zero; reflexivity].
Qed.
Lemma eval3_staged_run npts n0 n1 n2 b u P0 P1 P2 j : (j < npts)%nat ->
  eval3_staged npts n0 n1 n2 b u P0 P1 P2 j = cadd (b j) (series3 n0 n1 n2 u (P0 j) (P1 j) (P2 j)).
Proof.
  intros Hj. unfold eval3_staged. set (c := for_up npts 0 _ (fun _ _ _ => c0)). set (c2 := for_up npts 0 _ (fun _ _ => c0)).
  assert (accC (for_up npts 0 (fun i b => for_up n0 0 (fun k b => upd b i (cadd (b i) (cmul (c2 i k) (P0 i k)))) b))
    (fun j => if Nat.ltb j npts then csum n0 (fun k => cmul (c2 j k) (P0 j k)) else c0)) as H.
  { eapply accC_ext.
    - apply accC_loop. intros i _. eapply accC_ext.
      + apply accC_loop. intros k _. apply acc_upd. exact cadd_0_r.
      + intros j'. instantiate (1 := fun i j' => if Nat.eqb j' i then csum n0 (fun k => cmul (c2 i k) (P0 i k)) else c0). cbv beta.
        destruct (Nat.eqb_spec j' i) as [->|]; [reflexivity|apply csum_zero; reflexivity].
    - intros j'. cbv beta. apply (csum_pick npts (fun i => csum n0 (fun k => cmul (c2 i k) (P0 i k)))). }
  rewrite (H b j), (proj2 (Nat.ltb_lt j npts) Hj). f_equal. unfold series3. apply csum_ext. intros k Hk.
  unfold c2. rewrite staged_c2 by auto. rewrite csum_mul_r. apply csum_ext. intros l Hl. unfold c. rewrite staged_c by auto.
  rewrite !csum_mul_r. apply csum_ext. intros m _. apply cx_eq; cbn; ring.
Qed.
Lemma eval2_rr_run npts n0 n1 b u P0 P1 j : (j < npts)%nat ->
  eval2_rr npts n0 n1 b u P0 P1 j = b j + sumR n0 (fun k => sumR n1 (fun l => u k l * P0 j k * P1 j l)).
Proof.
  intros Hj. unfold eval2_rr.
  rewrite (accR_loop n0 _ (fun k j => if Nat.ltb j npts then sumR n1 (fun l => u k l * P0 j k * P1 j l) else 0)).
  - rewrite (proj2 (Nat.ltb_lt j npts) Hj). reflexivity.
  - intros k _. eapply accR_ext.
    + apply accR_loop. intros l _. apply (pts_real npts (fun i => u k l * P0 i k * P1 i l)). reflexivity.
    + intros i. cbv beta. apply ltb_sum.
Qed.
Lemma eval3_rrr_run npts n0 n1 n2 b u P0 P1 P2 j : (j < npts)%nat ->
  eval3_rrr npts n0 n1 n2 b u P0 P1 P2 j = b j + sumR n0 (fun k => sumR n1 (fun l => sumR n2 (fun m => u k l m * P0 j k * P1 j l * P2 j m))).
Proof.
  intros Hj. unfold eval3_rrr.
  rewrite (accR_loop n0 _ (fun k j => if Nat.ltb j npts then sumR n1 (fun l => sumR n2 (fun m => u k l m * P0 j k * P1 j l * P2 j m)) else 0)).
  - rewrite (proj2 (Nat.ltb_lt j npts) Hj). reflexivity.
  - intros k _. eapply accR_ext.
    + apply accR_loop. intros l _. apply accR_loop. intros m _. apply (pts_real npts (fun i => u k l m * P0 i k * P1 i l * P2 i m)). reflexivity.
    + intros i. cbv beta. rewrite <- ltb_sum. apply sumR_ext. intros l _. apply ltb_sum.
Qed.

(** ** the Python method *)
Lemma slice_sum_spec n sl st f : (0 <= sl)%Z -> (-1 <= st)%Z -> ((st = -1)%Z -> n = 0%nat) ->
  slice_sum n sl st f = sumR n (fun k => if ((sl <=? Z.of_nat k) && (Z.of_nat k <? st))%Z then f k else 0).
Proof.
  intros Hs Ht Hn. unfold slice_sum.
  assert (pyidx n sl = Nat.min (Z.to_nat sl) n) as E1.
  { unfold pyidx. destruct (Z.ltb_spec sl 0); lia. }
  assert (pyidx n st = Nat.min (Z.to_nat st) n) as E2.
  { unfold pyidx. destruct (Z.ltb_spec st 0); [assert (n = 0%nat) by (apply Hn; lia)|]; lia. }
  rewrite E1, E2. set (lo := Nat.min (Z.to_nat sl) n). set (hi := Nat.min (Z.to_nat st) n).
  replace n with (lo + (n - lo))%nat at 1 by (unfold lo; lia). rewrite sumR_split.
  rewrite (sumR_zero lo) by (intros i Hi; destruct (Z.leb_spec sl (Z.of_nat i)); [unfold lo in Hi; lia|reflexivity]). rewrite Rplus_0_l.
  destruct (Nat.le_gt_cases hi lo) as [Hh|Hh].
  - replace (hi - lo)%nat with 0%nat by lia. symmetry. apply sumR_zero. intros i Hi.
    destruct (Z.ltb_spec (Z.of_nat (lo + i)) st); [unfold hi, lo in *; lia|]. rewrite andb_false_r. reflexivity.
  - replace (n - lo)%nat with ((hi - lo) + (n - hi))%nat by (unfold hi, lo in *; lia). rewrite sumR_split.
    rewrite (sumR_zero (n - hi)).
    + rewrite Rplus_0_r. apply sumR_ext. intros i Hi.
      destruct (Z.leb_spec sl (Z.of_nat (lo + i))); [|unfold lo in *; lia]. destruct (Z.ltb_spec (Z.of_nat (lo + i)) st); [reflexivity|unfold hi in *; lia].
    + intros i Hi. destruct (Z.ltb_spec (Z.of_nat (lo + (hi - lo + i))) st); [unfold hi, lo in *; lia|]. rewrite andb_false_r. reflexivity.
Qed.
Lemma half_even N : Nat.even N = true -> (N = 2 * (N / 2))%nat.
Proof. intros H. apply Nat.even_spec in H. destruct H as [q ->]. rewrite (Nat.mul_comm 2 q), Nat.div_mul by lia. lia. Qed.
Lemma half_odd N : Nat.even N = false -> (N = 2 * (N / 2) + 1)%nat.
Proof.
  intros H. assert (Nat.odd N = true) as O by (unfold Nat.odd; rewrite H; reflexivity). apply Nat.odd_spec in O. destruct O as [q ->].
  rewrite (Nat.mul_comm 2 q), Nat.div_add_l by lia. cbn [Nat.div Nat.divmod fst]. change (1 / 2)%nat with 0%nat. lia.
Qed.
(** the slice of rank (offset, n) selects the modes that have a partner *)
Lemma conj_slice N offset n k : (offset + n <= N / 2 + 1)%nat -> (k < n)%nat ->
  ((conj_lo offset <=? Z.of_nat k) && (Z.of_nat k <? conj_hi N offset n))%Z = has_partner N (offset + k).
Proof.
  intros Hn Hk. unfold conj_lo, conj_hi, has_partner, last_conj_index.
  destruct (Nat.even N) eqn:E.
  - pose proof (half_even N E). destruct (Nat.eqb_spec offset 0), (Z.leb_spec ((if Nat.eqb offset 0 then 1 else Z.of_nat offset) - Z.of_nat offset) (Z.of_nat k));
    destruct (Nat.ltb_spec 0 (offset + k)), (Nat.ltb_spec (2 * (offset + k)) N);
    destruct (Z.ltb_spec (Z.of_nat k) (Z.min (Z.of_nat (N / 2 + 1 - 1)) (Z.of_nat (offset + n)) - Z.of_nat offset)); destruct (Z.leb_spec (1 - Z.of_nat offset) (Z.of_nat k)); destruct (Z.leb_spec (Z.of_nat offset - Z.of_nat offset) (Z.of_nat k)); try lia; try reflexivity.
  - pose proof (half_odd N E). destruct (Nat.eqb_spec offset 0), (Z.leb_spec ((if Nat.eqb offset 0 then 1 else Z.of_nat offset) - Z.of_nat offset) (Z.of_nat k));
    destruct (Nat.ltb_spec 0 (offset + k)), (Nat.ltb_spec (2 * (offset + k)) N);
    destruct (Z.ltb_spec (Z.of_nat k) (Z.min (Z.of_nat (N / 2 + 1)) (Z.of_nat (offset + n)) - Z.of_nat offset)); destruct (Z.leb_spec (1 - Z.of_nat offset) (Z.of_nat k)); destruct (Z.leb_spec (Z.of_nat offset - Z.of_nat offset) (Z.of_nat k)); try lia; try reflexivity.
Qed.
Lemma conj_slice_sum N offset n f : (offset + n <= N / 2 + 1)%nat ->
  sumR n f + slice_sum n (conj_lo offset) (conj_hi N offset n) f = sumR n (fun k => dbl (has_partner N (offset + k)) (f k)).
Proof.
  intros Hn. rewrite slice_sum_spec.
  - rewrite <- sumR_plus. apply sumR_ext. intros k Hk. rewrite conj_slice by auto. unfold dbl. destruct (has_partner _ _); ring.
  - unfold conj_lo. destruct (Nat.eqb_spec offset 0); lia.
  - unfold conj_hi, last_conj_index. destruct (Nat.even N); lia.
  - unfold conj_hi, last_conj_index. destruct (Nat.even N); lia.
Qed.
Lemma ranks_le s lens r : In r (ranks s lens) -> (s <= fst r /\ fst r + snd r <= s + total lens)%nat.
Proof.
  revert s. induction lens as [|n l IH]; intros s H; [destruct H|]. cbn [ranks total fold_right] in *. fold (total l). destruct H as [<-|H]; [cbn; lia|].
  apply IH in H. lia.
Qed.
Lemma eval_python_2D_run N lens0 lens1 npts u P0 P1 i : total lens1 = (N / 2 + 1)%nat ->
  eval_python_2D N lens0 lens1 npts u P0 P1 i = real_series2 N 1 (total lens0) (total lens1) u (P0 i) (P1 i).
Proof.
  intros HT. unfold eval_python_2D, real_series2. rewrite <- (allreduce_grid2 lens0 lens1 (fun k l => stored N (if (1 =? 0)%Z then k else l) (cmul (cmul (u k l) (P0 i k)) (P1 i l)))).
  apply allreduce_ext. intros [s0 m0] _. apply allreduce_ext. intros [s1 m1] H1. cbn [fst snd]. apply ranks_le in H1. cbn [fst snd] in H1.
  unfold eval_python_2D_rank. rewrite conj_slice_sum by lia. rewrite sumR_swap. apply sumR_ext. intros l _.
  change (1 =? 0)%Z with false. cbv iota. rewrite (sumR_ext m0 _ (fun k => (if has_partner N (s1 + l) then 2 else 1) * cre (cmul (cmul (u (s0 + k)%nat (s1 + l)%nat) (P0 i (s0 + k)%nat)) (P1 i (s1 + l)%nat)))) by (intros; apply stored_dbl).
  rewrite sumR_scal. unfold dbl. f_equal. unfold loc. rewrite <- cre_csum, <- csum_mul_r.
  set (out := csum m0 _). set (out' := csum m0 _). replace out' with out by (apply csum_ext; intros; apply cmul_comm). cbn [cmul cre]. ring.
Qed.
Lemma eval_python_3D_run N lens0 lens1 lens2 npts u P0 P1 P2 i : total lens2 = (N / 2 + 1)%nat ->
  eval_python_3D N lens0 lens1 lens2 npts u P0 P1 P2 i = real_series3 N 2 (total lens0) (total lens1) (total lens2) u (P0 i) (P1 i) (P2 i).
Proof.
  intros HT. unfold eval_python_3D, real_series3. rewrite <- (allreduce_grid3 lens0 lens1 lens2 (fun k l m => stored N (if (2 =? 0)%Z then k else if (2 =? 1)%Z then l else m) (cmul (cmul (cmul (u k l m) (P0 i k)) (P1 i l)) (P2 i m)))).
  apply allreduce_ext. intros [s0 m0] _. apply allreduce_ext. intros [s1 m1] _. apply allreduce_ext. intros [s2 m2] H2. cbn [fst snd]. apply ranks_le in H2. cbn [fst snd] in H2.
  unfold eval_python_3D_rank. rewrite conj_slice_sum by lia. change (2 =? 0)%Z with false. change (2 =? 1)%Z with false. cbv iota.
  rewrite (sumR_ext m0 _ (fun k => sumR m2 (fun m => sumR m1 (fun l => stored N (s2 + m) (cmul (cmul (cmul (u (s0 + k)%nat (s1 + l)%nat (s2 + m)%nat) (P0 i (s0 + k)%nat)) (P1 i (s1 + l)%nat)) (P2 i (s2 + m)%nat)))))) by (intros; apply sumR_swap).
  rewrite sumR_swap. apply sumR_ext. intros m _.
  rewrite (sumR_ext m0 _ (fun k => (if has_partner N (s2 + m) then 2 else 1) * cre (csum m1 (fun l => cmul (cmul (cmul (u (s0 + k)%nat (s1 + l)%nat (s2 + m)%nat) (P0 i (s0 + k)%nat)) (P1 i (s1 + l)%nat)) (P2 i (s2 + m)%nat))))).
  2: { intros k _. rewrite cre_csum, <- sumR_scal. apply sumR_ext. intros l _. apply stored_dbl. }
  rewrite sumR_scal. unfold dbl. f_equal. unfold loc. rewrite <- cre_csum. rewrite csum_swap.
  set (out := csum m1 (fun l : nat => cmul (P1 i (s1 + l)%nat) _)).
  match goal with |- _ = cre ?o => set (out' := o) end.
  assert (out' = cmul (P2 i (s2 + m)%nat) out) as ->; [|reflexivity].
  unfold out, out'. rewrite csum_mul_l. apply csum_ext. intros l _. rewrite !csum_mul_l. apply csum_ext. intros k _. apply cx_eq; cbn; ring.
Qed.
Lemma eval_r2c_1D_run N u P i : (1 <= N)%nat -> eval_r2c_1D N u P i = real_series1 N u (P i).
Proof.
  intros HN. unfold eval_r2c_1D, real_series1. set (n := (N / 2 + 1)%nat).
  rewrite (sumR_ext n _ (fun k => dbl (has_partner N (0 + k)) (cre (cmul (u k) (P i k))))) by (intros; apply stored_dbl).
  rewrite <- conj_slice_sum by (unfold n; lia). f_equal.
  - rewrite cre_csum. apply sumR_ext. intros k _. rewrite cmul_comm. reflexivity.
  - cbn [cconj cre]. rewrite cre_csum. unfold slice_sum.
    assert (pyidx n (conj_lo 0) = pyidx n 1) as -> by reflexivity.
    assert (pyidx n (conj_hi N 0 n) = if Nat.even N then pyidx n (-1) else n) as ->.
    { unfold conj_hi, last_conj_index, n. destruct (Nat.even N) eqn:E.
      - pose proof (half_even N E). unfold pyidx. destruct (Z.ltb_spec (Z.min (Z.of_nat (N / 2 + 1 - 1)) (Z.of_nat (0 + (N / 2 + 1))) - Z.of_nat 0) 0); [lia|].
        destruct (Z.ltb_spec (-1) 0); lia.
      - unfold pyidx. destruct (Z.ltb_spec (Z.min (Z.of_nat (N / 2 + 1)) (Z.of_nat (0 + (N / 2 + 1))) - Z.of_nat 0) 0); lia. }
    apply sumR_ext. intros k _. rewrite cmul_comm. reflexivity.
Qed.
(** R2C axis first, the other axis real *)
Lemma eval_python_2D_first_run N npts n0 n1 u P0 P1 i : n0 = (N / 2 + 1)%nat ->
  eval_python_2D_first_rank N npts n0 n1 0 u P0 P1 i = real_series2 N 0 n0 n1 u (P0 i) (fun l => cofR (P1 i l)).
Proof.
  intros Hn. unfold eval_python_2D_first_rank, real_series2. rewrite sumR_swap. apply sumR_ext. intros l _.
  change (0 =? 0)%Z with true. cbv iota.
  rewrite (sumR_ext n0 _ (fun k => P1 i l * dbl (has_partner N (0 + k)) (cre (cmul (u k l) (P0 i k))))).
  2: { intros k _. rewrite stored_dbl. unfold dbl. cbn. ring. }
  rewrite sumR_scal. f_equal. rewrite <- conj_slice_sum by (rewrite Hn; lia). cbn [cadd cre cconj]. f_equal.
  - rewrite cre_csum. apply sumR_ext. intros. rewrite cmul_comm. reflexivity.
  - rewrite cre_csum. unfold slice_sum. apply sumR_ext. intros. rewrite cmul_comm. reflexivity.
Qed.

(** ** when the cython kernels agree with the specification *)
Lemma run2_spec N r2c n0 n1 u F0 F1 : (if (r2c =? 0)%Z then n0 else n1) = (N / 2 + 1)%nat ->
  (forall k l, (k < n0)%nat -> (l < n1)%nat -> (2 * (if (r2c =? 0)%Z then k else l) = N)%nat -> (1 <= N)%nat -> u k l = c0) ->
  run2 N r2c n0 n1 u F0 F1 = real_series2 N r2c n0 n1 u F0 F1.
Proof.
  intros Hn Hz. unfold run2, real_series2. apply sumR_ext. intros k Hk. apply sumR_ext. intros l Hl. rewrite stored_dbl. set (q := if (r2c =? 0)%Z then k else l) in *.
  assert (q < N / 2 + 1)%nat as Hq by (rewrite <- Hn; unfold q; destruct (r2c =? 0)%Z; assumption).
  unfold has_partner. destruct (Nat.ltb_spec 0 q); [|reflexivity]. cbn [andb]. destruct (Nat.ltb_spec (2 * q) N) as [|H2]; [reflexivity|].
  assert (2 * q = N)%nat as E by (pose proof (Nat.mul_div_le N 2); lia).
  rewrite (Hz k l Hk Hl E) by lia. unfold dbl. cbn. ring.
Qed.
Lemma run3_spec N r2c n0 n1 n2 u F0 F1 F2 : (if (r2c =? 0)%Z then n0 else if (r2c =? 1)%Z then n1 else n2) = (N / 2 + 1)%nat ->
  (forall k l m, (k < n0)%nat -> (l < n1)%nat -> (m < n2)%nat -> (2 * (if (r2c =? 0)%Z then k else if (r2c =? 1)%Z then l else m) = N)%nat -> (1 <= N)%nat -> u k l m = c0) ->
  run3 N r2c n0 n1 n2 u F0 F1 F2 = real_series3 N r2c n0 n1 n2 u F0 F1 F2.
Proof.
  intros Hn Hz. unfold run3, real_series3. apply sumR_ext. intros k Hk. apply sumR_ext. intros l Hl. apply sumR_ext. intros m Hm. rewrite stored_dbl. set (q := if (r2c =? 0)%Z then k else if (r2c =? 1)%Z then l else m) in *.
  assert (q < N / 2 + 1)%nat as Hq by (rewrite <- Hn; unfold q; destruct (r2c =? 0)%Z; [|destruct (r2c =? 1)%Z]; assumption).
  unfold has_partner. destruct (Nat.ltb_spec 0 q); [|reflexivity]. cbn [andb]. destruct (Nat.ltb_spec (2 * q) N) as [|H2]; [reflexivity|].
  assert (2 * q = N)%nat as E by (pose proof (Nat.mul_div_le N 2); lia).
  rewrite (Hz k l m Hk Hl Hm E) by lia. unfold dbl. cbn. ring.
Qed.
