(** CoordProofs6.v -- curl in curvilinear coordinates. *)
From Coq Require Import Reals ZArith List Bool Arith Lia Lra.
From Verif Require Import FormsModel FormsSpec FormsProofs FormsProofs2 FormsProofs3 FormsProofs4 CoordModel CoordSpec CoordProofs CoordProofs2 CoordProofs3 CoordProofs4.
Import ListNotations.
Local Open Scope R_scope.

Section P.
Context {S : SymS} (L : SymSLaws S) (n m : nat) (rv : nat -> S) (normal : bool).
Implicit Types (e f r : expr S) (x y z : pt) (U : nat -> list nat -> pt -> R).
Notation ev := (ev L). Notation good := (good L). Notation mean := (mean L). Notation defined := (defined L).
Notation B := (tangent L rv). Notation gram := (gram L m rv). Notation regular := (regular L n m rv).
Notation co := (coords_of n m rv normal).
Notation rgt := (rgt L n m rv). Notation rct := (rct L n m rv). Notation rsg := (rsg L n m rv). Notation rhi := (rhi L m rv).
Notation scl := (scl L m rv normal). Notation vc := (vc L m rv normal). Notation vc2 := (vc2 L n m rv normal).
Notation lmean := (lmean L). Notation scalars := (scalars n). Notation all_defined := (all_defined L).
Hypothesis Hn : (1 <= n <= 3)%nat.

(** the covariant components *)
Definition cv e b U z := rsum n (fun k => vc e k U z * gram z b k).

Lemma rhi_sq z i : rhi z i * rhi z i = gram z i i.
Proof. unfold CoordProofs2.rhi. apply sqrt_sqrt, dot_self_nonneg. Qed.
Lemma offdiag_gram z i j : offdiag n m rv = true -> regular z -> (i < n)%nat -> (j < n)%nat -> i <> j -> gram z i j = 0.
Proof.
  intros H Rz Hi Hj Hij. rewrite <- (proj2 (metric_ok L n m rv Hn z i j (regular_rv L n m rv z Rz))). apply (ev_is0 _ L).
  unfold offdiag in H. rewrite forallb_forall in H. specialize (H i). rewrite forallb_forall in H.
  specialize (H ltac:(apply in_seq; lia) j ltac:(apply in_seq; lia)). apply orb_prop in H. destruct H as [H|H]; [|exact H].
  apply Nat.eqb_eq in H. contradiction.
Qed.
Lemma gram_partial z k p q : regular z -> partial k (fun w => gram w p q) z (dot m (B2 L rv z k p) (B z q) + dot m (B z p) (B2 L rv z k q)).
Proof.
  intros Rz. pose proof (regular_rv L n m rv z Rz) as HR. unfold CoordSpec.gram, dot. rewrite <- rsum_plus.
  apply (rsum_partial k m (fun a w => B w p a * B w q a)). intros a Ha.
  apply (partial_mult k (fun w => B w p a) (fun w => B w q a)); apply (B_partial L m rv); assumption.
Qed.
Hypothesis H1 : (1 < n)%nat.
Lemma diff1 e (b : nat) c a da (q : S) : mul c q = e -> wf c -> e_dim c = n -> num_components c = 1%nat -> dx1 co e a = Some da ->
  (a < n)%nat /\ wf da /\ e_dim da = n /\ num_components da = 1%nat /\
  forall z, defined c z -> good q z -> defined da z /\
    forall (F : pt -> R) U, smooth n U z -> near a z (fun w => defined c w /\ good q w /\ F w = mean c 0 U w * ev q w) ->
    forall d, partial a F z d -> mean da 0 U z = d.
Proof.
  intros <- W D N H. clear b. destruct (mul_like c q) as [M1 M2].
  assert (Wm : wf (mul c q)) by (apply mul_wf, W). assert (Dm : e_dim (mul c q) = n) by congruence.
  assert (Nm : num_components (mul c q) = 1%nat) by congruence.
  destruct (dx_ok L n m rv normal Hn _ a da H Wm Dm Nm) as (Ha & Wd & Dd & Nd & Md).
  split; [exact Ha|]. split; [exact Wd|]. split; [exact Dd|]. split; [exact Nd|]. intros z Dz Gz.
  assert (Dmz : defined (mul c q) z) by (apply mul_defined; assumption). split; [apply Md, Dmz|]. intros F U HU E d Pd.
  apply (dx_val L n m rv normal _ a da z U F d H Wm Dm Nm Dmz HU); [|exact Pd].
  eapply near_imp; [|exact E]. intros w (Dw & Gw & ->). symmetry. apply mul_mean; assumption.
Qed.
(** the difference of two derivatives over sqrt(det g) *)
Lemma diff2 da db d : sub da db = Some d -> wf da -> wf db -> e_dim da = n -> e_dim db = n -> num_components da = 1%nat -> num_components db = 1%nat ->
  let r := mul d (s_inv (sqrt_det_g n m rv)) in
  wf r /\ e_dim r = n /\ num_components r = 1%nat /\ forall z, regular z -> defined da z -> defined db z -> defined r z /\
    forall U, mean r 0 U z = (mean da 0 U z - mean db 0 U z) / rsg z.
Proof.
  intros H Wa Wb Da Db Na Nb r. pose proof (sub_spec _ _ _ H) as ((Z1 & Z2) & _ & _). destruct (mul_like d (s_inv (sqrt_det_g n m rv))) as [M1 M2].
  assert (Wd : wf d) by (eapply sub_wf; eauto; congruence).
  split; [apply mul_wf, Wd|]. unfold r. split; [congruence|]. split; [congruence|]. intros z Rz A C.
  assert (Dd : defined d z) by (eapply sub_defined; eauto). destruct (inv_sg_ok L n m rv Hn z Rz) as [Gi Ei].
  split; [apply mul_defined; assumption|]. intros U. rewrite mul_mean by assumption. rewrite Ei, (sub_mean L _ _ _ 0 U z H). reflexivity.
Qed.

Section Comp.
Variable e : expr S.
Hypothesis W : wf e.
Hypothesis D : e_dim e = n.
Hypothesis N : num_components e = n.
(** the value that both formulas must have *)
Definition comp_spec (a b : nat) (w : expr S) : Prop := (a < n)%nat /\ (b < n)%nat /\
  scalars [w] /\ forall z, regular z -> defined e z -> defined w z /\
    forall U da db, smooth n U z -> partial a (cv e b U) z da -> partial b (cv e a U) z db -> mean w 0 U z = (da - db) / rsg z.

Lemma contra_lt i c : contra co e i = Some c -> (i < n)%nat.
Proof. intros E. apply (contra_spec L n m rv normal Hn e i c W H1 D N E). Qed.
(** orthogonal coordinates *)
Lemma curl_comp_orth_ok a b w : offdiag n m rv = true -> curl_comp_orth co e a b = Some w -> comp_spec a b w.
Proof.
  intros HO H. unfold curl_comp_orth in H. cbn [co_hi co_sg coords_of] in H.
  destruct (contra co e b) as [ca|] eqn:Ea; [|discriminate]. cbn [obind] in H.
  match type of H with obind ?o _ = _ => destruct o as [da|] eqn:Da; [|discriminate] end. cbn [obind] in H.
  destruct (contra co e a) as [cb|] eqn:Eb; [|discriminate]. cbn [obind] in H.
  match type of H with obind ?o _ = _ => destruct o as [db|] eqn:Db; [|discriminate] end. cbn [obind] in H.
  destruct (sub da db) as [d|] eqn:Ed; [|discriminate]. cbn [obind] in H. apply some_inj in H. rewrite H. clear H w.
  pose proof (contra_lt _ _ Ea) as Hb. pose proof (contra_lt _ _ Eb) as Ha.
  assert (X : forall i j c dd, contra co e i = Some c -> dx1 co (mul c (s_mul (scaling m rv i) (scaling m rv i))) j = Some dd -> (i < n)%nat ->
    wf dd /\ e_dim dd = n /\ num_components dd = 1%nat /\ forall z, regular z -> defined e z ->
      defined dd z /\ forall U v, smooth n U z -> partial j (cv e i U) z v -> mean dd 0 U z = v).
  { intros i j c dd Ei Ej Hi. destruct (contra_spec L n m rv normal Hn e i c W H1 D N Ei) as (_ & C1 & C2 & C3 & C4).
    destruct (diff1 _ i c j dd _ eq_refl C3 C1 C2 Ej) as (Hj & Q1 & Q2 & Q3 & Q4).
    split; [exact Q1|]. split; [exact Q2|]. split; [exact Q3|]. intros z Rz Dz.
    assert (G : forall w, regular w -> good (s_mul (scaling m rv i) (scaling m rv i)) w /\ ev (s_mul (scaling m rv i) (scaling m rv i)) w = gram w i i).
    { intros w Rw. destruct (hi_ok L n m rv Hn w i Rw Hi) as (A1 & A2 & _). split; [apply (good_mul _ L); assumption|].
      rewrite (ev_mul _ L), A2. apply rhi_sq. }
    destruct (Q4 z (proj1 (C4 z Rz Dz)) (proj1 (G z Rz))) as [R1 R2]. split; [exact R1|]. intros U v HU. apply (R2 (cv e i U) U HU).
    eapply near_imp; [|exact (near_and _ _ _ _ (regular_near L n m rv Hn z j Rz) (defined_near L e z j Dz))]. intros w [Rw Dw].
    destruct (C4 w Rw Dw) as [Dc Mc]. destruct (G w Rw) as [Gw Ew]. split; [exact Dc|]. split; [exact Gw|]. rewrite Mc, Ew. unfold cv.
    rewrite (rsum_ext n _ (fun k => delta i k * (vc e k U w * gram w i k))).
    - apply (rsum_delta n i (fun k => vc e k U w * gram w i k) Hi).
    - intros k Hk. unfold delta. destruct (Nat.eqb_spec i k) as [->|Hik]; [ring|]. rewrite (offdiag_gram w i k HO Rw Hi Hk Hik). ring. }
  destruct (X b a ca da Ea Da Hb) as (Wa & Dda & Na & Ma). destruct (X a b cb db Eb Db Ha) as (Wb & Ddb & Nb & Mb).
  destruct (diff2 da db d Ed Wa Wb Dda Ddb Na Nb) as (Y1 & Y2 & Y3 & Y4).
  split; [exact Ha|]. split; [exact Hb|]. split; [intros f [<-|[]]; auto|]. intros z Rz Dz. split.
  - apply Y4; [exact Rz|apply (Ma z Rz Dz)|apply (Mb z Rz Dz)].
  - intros U va vb HU Pa Pb. destruct (Ma z Rz Dz) as [A1 A2]. destruct (Mb z Rz Dz) as [B1 B2'].
    rewrite (proj2 (Y4 z Rz A1 B1)), (A2 U va HU Pa), (B2' U vb HU Pb). reflexivity.
Qed.
(** any coordinates *)
Lemma curl_comp_curv_ok a b w : (a < n)%nat -> (b < n)%nat -> curl_comp_curv co n e a b = Some w -> comp_spec a b w.
Proof.
  intros Ha Hb H. unfold curl_comp_curv in H. cbn [co_g co_sg coords_of] in H.
  destruct (opt_all _) as [l|] eqn:El; [|discriminate]. cbn [obind] in H. destruct (opt_all_seq _ _ _ enl El) as [Hl Hr].
  assert (T : forall i, (i < n)%nat -> scalars [nth i l enl] /\ forall z, regular z -> defined e z -> defined (nth i l enl) z /\
     forall U va vb, smooth n U z -> partial a (fun w => vc e i U w * gram w b i) z va -> partial b (fun w => vc e i U w * gram w a i) z vb ->
       mean (nth i l enl) 0 U z = (va - vb) / rsg z).
  { intros i Hi. specialize (Hr i Hi). cbv beta in Hr. destruct (contra co e i) as [c|] eqn:Ec; [|discriminate]. cbn [obind] in Hr.
    match type of Hr with obind ?o _ = _ => destruct o as [da|] eqn:Da; [|discriminate] end. cbn [obind] in Hr.
    match type of Hr with obind ?o _ = _ => destruct o as [db|] eqn:Db; [|discriminate] end. cbn [obind] in Hr.
    destruct (sub da db) as [d|] eqn:Ed; [|discriminate]. cbn [obind] in Hr. apply some_inj in Hr. rewrite Hr.
    destruct (contra_spec L n m rv normal Hn e i c W H1 D N Ec) as (_ & C1 & C2 & C3 & C4).
    destruct (diff1 _ i c a da _ eq_refl C3 C1 C2 Da) as (_ & Q1 & Q2 & Q3 & Q4).
    destruct (diff1 _ i c b db _ eq_refl C3 C1 C2 Db) as (_ & P1 & P2 & P3 & P4).
    destruct (diff2 da db d Ed Q1 P1 Q2 P2 Q3 P3) as (Y1 & Y2 & Y3 & Y4).
    split; [intros f [<-|[]]; auto|]. intros z Rz Dz.
    assert (G : forall p q w, regular w -> good (cov_metric m rv p q) w /\ ev (cov_metric m rv p q) w = gram w p q).
    { intros p q w0 Rw. apply (metric_ok L n m rv Hn w0 p q (regular_rv L n m rv w0 Rw)). }
    assert (K : forall U p q, near q z (fun w => defined c w /\ good (cov_metric m rv p i) w /\ vc e i U w * gram w p i = mean c 0 U w * ev (cov_metric m rv p i) w)).
    { intros U p q. eapply near_imp; [|exact (near_and _ _ _ _ (regular_near L n m rv Hn z q Rz) (defined_near L e z q Dz))]. intros w0 [Rw Dw].
      destruct (C4 w0 Rw Dw) as [Dc Mc]. destruct (G p i w0 Rw) as [Gw Ew]. split; [exact Dc|]. split; [exact Gw|]. rewrite Mc, Ew. reflexivity. }
    destruct (Q4 z (proj1 (C4 z Rz Dz)) (proj1 (G b i z Rz))) as [A1 A2].
    destruct (P4 z (proj1 (C4 z Rz Dz)) (proj1 (G a i z Rz))) as [B1 B2'].
    destruct (Y4 z Rz A1 B1) as [E1 E2]. split; [exact E1|]. intros U va vb HU Pa Pb. rewrite E2, (A2 _ U HU (K U b a) va Pa), (B2' _ U HU (K U a b) vb Pb). reflexivity. }
  assert (Hs : scalars l).
  { intros f Hf. destruct (In_nth _ _ enl Hf) as (i & Hi & <-). rewrite Hl in Hi. apply (proj1 (T i Hi)). left. reflexivity. }
  destruct (sum_ok L n l w H Hs) as (P1 & P2 & P3 & P4 & P5).
  split; [exact Ha|]. split; [exact Hb|]. split; [intros f [<-|[]]; auto|]. intros z Rz Dz. split.
  - apply P4. intros f Hf. destruct (In_nth _ _ enl Hf) as (i & Hi & <-). rewrite Hl in Hi. apply (proj2 (T i Hi) z Rz Dz).
  - intros U va vb HU Pa Pb. rewrite P5. unfold CoordProofs3.lmean. rewrite (fold_right_nth (fun e => mean e 0 U z) enl), Hl.
    assert (Dv : exists dv, forall i k, (i < n)%nat -> (k < n)%nat -> partial k (vc e i U) z (dv i k)).
    { assert (K : forall i k, exists d, (i < n)%nat -> (k < n)%nat -> partial k (vc e i U) z d).
      { intros i k. destruct (lt_dec i n) as [Hi|]; [|exists 0; intros; lia]. destruct (lt_dec k n) as [Hk|]; [|exists 0; intros; lia].
        destruct (vc_partial L n m rv normal Hn e i k U z W D Rz Dz HU Hi Hk) as [d Pd]. exists d. auto. }
      destruct n as [|[|[|[|]]]]; try lia.
      all: destruct (K 0%nat 0%nat) as [d00 K00], (K 0%nat 1%nat) as [d01 K01], (K 0%nat 2%nat) as [d02 K02],
             (K 1%nat 0%nat) as [d10 K10], (K 1%nat 1%nat) as [d11 K11], (K 1%nat 2%nat) as [d12 K12],
             (K 2%nat 0%nat) as [d20 K20], (K 2%nat 1%nat) as [d21 K21], (K 2%nat 2%nat) as [d22 K22].
      all: exists (fun i k => match i, k with 0, 0 => d00 | 0, 1 => d01 | 0, _ => d02 | 1, 0 => d10 | 1, 1 => d11 | 1, _ => d12
                                       | _, 0 => d20 | _, 1 => d21 | _, _ => d22 end)%nat.
      all: intros i k Hi Hk; destruct i as [|[|[|]]]; try lia; destruct k as [|[|[|]]]; try lia; auto. }
    destruct Dv as [dv Hdv].
    set (g := fun k p q => dot m (B2 L rv z k p) (B z q) + dot m (B z p) (B2 L rv z k q)).
    assert (Pt : forall p q i, (p < n)%nat -> (i < n)%nat -> partial p (fun w => vc e i U w * gram w q i) z (dv i p * gram z q i + vc e i U z * g p q i)).
    { intros p q i Hp Hi. apply (partial_mult p (vc e i U) (fun w => gram w q i)); [apply Hdv; assumption|apply gram_partial, Rz]. }
    rewrite (rsum_ext n _ (fun i => ((dv i a * gram z b i + vc e i U z * g a b i) - (dv i b * gram z a i + vc e i U z * g b a i)) * / rsg z)).
    2: { intros i Hi. apply (proj2 (T i Hi) z Rz Dz); [exact HU| |]; apply Pt; assumption. }
    rewrite rsum_scal_r, rsum_minus. unfold Rdiv. f_equal. f_equal.
    + eapply partial_unique; [|exact Pa]. apply (rsum_partial a n (fun i w => vc e i U w * gram w b i)). intros i Hi. apply Pt; assumption.
    + eapply partial_unique; [|exact Pb]. apply (rsum_partial b n (fun i w => vc e i U w * gram w a i)). intros i Hi. apply Pt; assumption.
Qed.
End Comp.

Hypothesis HC : is_cartesian n m rv = false.
Lemma curl_3d_curv_ok e w : wf e -> n = 3%nat -> e_dim e = n -> num_components e = n -> curl co e = Some w ->
  e_dim w = n /\ num_components w = n /\ wf w /\ forall z, regular z -> defined e z -> defined w z /\
    forall U dc, smooth n U z -> (forall p q, (p < n)%nat -> (q < n)%nat -> partial p (cv e q U) z (dc p q)) ->
      mean w 0 U z = (dc 1%nat 2%nat - dc 2%nat 1%nat) / rsg z * scl z 0 /\
      mean w 1 U z = (dc 2%nat 0%nat - dc 0%nat 2%nat) / rsg z * scl z 1 /\
      mean w 2 U z = (dc 0%nat 1%nat - dc 1%nat 0%nat) / rsg z * scl z 2.
Proof.
  intros W E3 D N H. unfold curl in H. cbn [co_cart coords_of] in H. rewrite HC in H.
  destruct (expr_rank e) as [r|]; [|discriminate]. cbn [obind] in H. destruct (2 <=? r)%nat; [discriminate|].
  cbv zeta in H. cbn [co_orth coords_of] in H. rewrite D in H. replace (n =? 3)%nat with true in H by (rewrite E3; reflexivity).
  set (cc := if is_orthogonal n m rv then curl_comp_orth co e else curl_comp_curv co n e) in H.
  assert (X : forall a b w, (a < n)%nat -> (b < n)%nat -> cc a b = Some w -> comp_spec e a b w).
  { intros a b w' Ha Hb Hw. unfold cc in Hw. destruct (is_orthogonal n m rv) eqn:EO.
    - apply curl_comp_orth_ok; assumption.
    - apply curl_comp_curv_ok; assumption. }
  destruct (cc 1%nat 2%nat) as [w0|] eqn:E0; [|discriminate]. cbn [obind] in H.
  destruct (cc 2%nat 0%nat) as [w1|] eqn:E1; [|discriminate]. cbn [obind] in H.
  destruct (cc 0%nat 1%nat) as [w2|] eqn:E2; [|discriminate]. cbn [obind] in H.
  destruct (from_components co n [w0; w1; w2]) as [v|] eqn:Ev; [|discriminate]. cbn [obind] in H. apply some_inj in H.
  destruct (X 1 2 w0 ltac:(lia) ltac:(lia) E0)%nat as (_ & _ & S0 & M0). destruct (X 2 0 w1 ltac:(lia) ltac:(lia) E1)%nat as (_ & _ & S1 & M1).
  destruct (X 0 1 w2 ltac:(lia) ltac:(lia) E2)%nat as (_ & _ & S2 & M2).
  assert (Hs : scalars [w0; w1; w2]).
  { intros f [<-|[<-|[<-|[]]]]; [apply S0|apply S1|apply S2]; left; reflexivity. }
  destruct (simp1 L n m rv v [w0; w1; w2] (fun i z => scl z i) n (tail1 L n m rv normal Hn _ v Ev Hs (eq_sym E3))) as (A & B' & C & M).
  rewrite H. split; [exact A|]. split; [exact B'|]. split; [exact C|]. intros z Rz Dz.
  destruct (M0 z Rz Dz) as [D0 V0]. destruct (M1 z Rz Dz) as [D1 V1]. destruct (M2 z Rz Dz) as [D2 V2].
  destruct (M z Rz) as [DD VV].
  { intros f [<-|[<-|[<-|[]]]]; [exact D0|exact D1|exact D2]. }
  split; [exact DD|]. intros U dc HU Hc. rewrite !VV by lia. cbn [nth].
  rewrite (V0 U (dc 1 2)%nat (dc 2 1)%nat HU), (V1 U (dc 2 0)%nat (dc 0 2)%nat HU), (V2 U (dc 0 1)%nat (dc 1 0)%nat HU) by (apply Hc; lia).
  repeat split; reflexivity.
Qed.
Lemma curl_2d_curv_ok e w : wf e -> n = 2%nat -> e_dim e = n -> num_components e = n -> curl co e = Some w ->
  e_dim w = n /\ num_components w = 1%nat /\ wf w /\ forall z, regular z -> defined e z -> defined w z /\
    forall U dc, smooth n U z -> (forall p q, (p < n)%nat -> (q < n)%nat -> partial p (cv e q U) z (dc p q)) ->
      mean w 0 U z = (dc 0%nat 1%nat - dc 1%nat 0%nat) / rsg z.
Proof.
  intros W E3 D N H. unfold curl in H. cbn [co_cart coords_of] in H. rewrite HC in H.
  destruct (expr_rank e) as [r|]; [|discriminate]. cbn [obind] in H. destruct (2 <=? r)%nat; [discriminate|].
  cbv zeta in H. cbn [co_orth coords_of] in H. rewrite D in H. replace (n =? 3)%nat with false in H by (rewrite E3; reflexivity). replace (n =? 2)%nat with true in H by (rewrite E3; reflexivity).
  set (cc := if is_orthogonal n m rv then curl_comp_orth co e else curl_comp_curv co n e) in H.
  destruct (cc 0%nat 1%nat) as [w2|] eqn:E2; [|discriminate]. cbn [obind] in H. apply some_inj in H.
  assert (X : comp_spec e 0 1 w2).
  { unfold cc in E2. destruct (is_orthogonal n m rv) eqn:EO; [apply curl_comp_orth_ok; assumption|apply curl_comp_curv_ok; try assumption; lia]. }
  destruct X as (_ & _ & S2 & M2). destruct (S2 w2 (or_introl eq_refl)) as (P1 & P2 & P3).
  rewrite H, simplify_dim, simplify_num. split; [exact P2|]. split; [exact P3|]. split; [apply simplify_wf, P1|]. intros z Rz Dz.
  destruct (M2 z Rz Dz) as [D2 V2]. split; [apply simplify_ok, D2|]. intros U dc HU Hc. rewrite simplify_mean by exact D2.
  apply V2; [exact HU|apply Hc; lia|apply Hc; lia].
Qed.
End P.
