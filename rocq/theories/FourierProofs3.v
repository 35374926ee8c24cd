(** FourierProofs3.v -- real transforms by hermitian extension; energies. *)
From Coq Require Import Arith ZArith List Lia Bool Field.
From Verif Require Import Base Fld SparseModel FourierModel FourierSpec FourierProofs FourierProofs2.
Import ListNotations.
Local Open Scope nat_scope.

Section P.
  Variable K : Fld.
  Add Field KF3 : (flaws K).
  Notation vec := (nat -> K).
  Local Open Scope fld_scope.
  Notation zpow := (zpow K).
  Notation prim_root := (prim_root K).
  Notation bandsum := (bandsum K).
  Notation coef := (coef K).
  Notation linconv := (linconv K).
  Ltac Zdiv2 n := pose proof (Nat.div_mod n 2 ltac:(lia)); pose proof (Nat.mod_upper_bound n 2 ltac:(lia)).
  Ltac nb := repeat match goal with
    | |- context [(?a <=? ?b)%nat] => destruct (Nat.leb_spec a b); try lia
    | |- context [(?a <? ?b)%nat] => destruct (Nat.ltb_spec a b); try lia
    | |- context [(?a =? ?b)%nat] => destruct (Nat.eqb_spec a b); try lia
    | |- context [(?a <=? ?b)%Z] => destruct (Z.leb_spec a b); try lia
    | |- context [(?a <? ?b)%Z] => destruct (Z.ltb_spec a b); try lia
    | |- context [(?a =? ?b)%Z] => destruct (Z.eqb_spec a b); try lia
    end.

  Variable conj : K -> K.
  Hypothesis Hc : conj_ok K conj.
  Hypothesis two : (1 + 1 : K) <> 0.
  Notation hermitian := (hermitian K conj).
  Notation re := (re K conj).

  Lemma conj_add a b : conj (a + b) = conj a + conj b. Proof. apply Hc. Qed.
  Lemma conj_mul a b : conj (a * b) = conj a * conj b. Proof. apply Hc. Qed.
  Lemma conj_conj a : conj (conj a) = a. Proof. apply Hc. Qed.
  Lemma conj_0 : conj 0 = 0.
  Proof. pose proof (conj_add 0 0) as E. replace (0 + 0 : K) with (0 : K) in E by ring.
    transitivity (conj 0 + conj 0 - conj 0); [ring|]. rewrite <- E. ring. Qed.
  Lemma conj_1 : conj 1 = 1.
  Proof.
    pose proof (conj_mul 1 (conj 1)) as E. rewrite conj_conj in E.
    replace (1 * conj 1) with (conj 1) in E by ring. rewrite conj_conj in E.
    symmetry. transitivity (conj 1 * 1); [exact E | ring].
  Qed.
  Lemma conj_half : conj (1 / (1 + 1)) = 1 / (1 + 1).
  Proof.
    assert (E : conj (1 / (1 + 1)) * (1 + 1) = 1).
    { transitivity (conj (1 / (1 + 1)) * conj (1 + 1)); [rewrite conj_add, conj_1; reflexivity|].
      rewrite <- conj_mul. transitivity (conj 1); [f_equal; field; auto | apply conj_1]. }
    transitivity (conj (1 / (1 + 1)) * (1 + 1) / (1 + 1)); [field; auto | rewrite E; reflexivity].
  Qed.
  Lemma conj_sum n (f : vec) : conj (fsum n f) = fsum n (fun i => conj (f i)).
  Proof. induction n as [|n IH]; [apply conj_0|]. rewrite !fsum_S, conj_add, IH. reflexivity. Qed.
  Lemma conj_nat n : conj (fnat n) = fnat n.
  Proof. induction n as [|n IH]; simpl; [apply conj_0|]. rewrite conj_add, IH, conj_1. reflexivity. Qed.
  Lemma conj_pow x n : conj (fpow x n) = fpow (conj x) n.
  Proof. induction n as [|n IH]; simpl; [apply conj_1|]. rewrite conj_mul, IH. reflexivity. Qed.
  Lemma conj_inv x : x <> 0 -> conj (finv x) = finv (conj x).
  Proof.
    intros Hx. assert (Hx' : conj x <> 0). { intros E. apply Hx. rewrite <- (conj_conj x), E. apply conj_0. }
    assert (E : conj (finv x) * conj x = 1). { rewrite <- conj_mul. rewrite <- conj_1. f_equal. field. auto. }
    transitivity (conj (finv x) * conj x * finv (conj x)); [field; auto | rewrite E; ring].
  Qed.
  Lemma conj_re x : conj (re x) = re x.
  Proof. unfold FourierModel.re. rewrite conj_mul, conj_half, conj_add, conj_conj. ring. Qed.
  Lemma re_real x : conj x = x -> re x = x.
  Proof. intros E. unfold FourierModel.re. rewrite E. field. auto. Qed.
  Lemma herm_eq n c k : hermitian n c k =
    if (k =? 0)%nat then re (c 0%nat) else if (2 * k <? n)%nat then c k else if (2 * k =? n)%nat then re (c k) else conj (c (n - k)%nat).
  Proof. reflexivity. Qed.

  (** ** hermitian symmetry of the transform of real data *)
  Section Root.
  Variable w : K.
  Hypothesis Hw : w <> 0.
  Hypothesis cw : conj w = finv w.
  Lemma conj_zpow k : conj (zpow w k) = zpow w (- k).
  Proof.
    destruct (Z_cases k) as [n [-> | ->]].
    - rewrite zpow_opp_nat, zpow_nat, conj_pow, cw. reflexivity.
    - rewrite Z.opp_involutive, zpow_opp_nat, zpow_nat, conj_pow. f_equal.
      rewrite conj_inv, cw by auto. field; repeat split; auto; apply f1_neq_0.
  Qed.
  Lemma fftn_conj n u k : (0 < n)%nat -> fpow w n = 1 -> (forall j, (j < n)%nat -> conj (u j) = u j) -> (k <= n)%nat ->
    conj (fftn K n w u k) = fftn K n w u (n - k)%nat.
  Proof.
    intros Hn H1 Hu Hk. rewrite !fftn_z by auto. rewrite conj_sum. apply fsum_ext. intros j Hj.
    rewrite conj_mul, Hu, conj_zpow by auto. f_equal. apply (zpow_period K n w _ _ Hn H1).
    replace (- (Z.of_nat j * Z.of_nat (n - k)))%Z with (- - (Z.of_nat j * Z.of_nat k) + (- Z.of_nat j) * Z.of_nat n)%Z by nia.
    rewrite Z.mod_add by lia. reflexivity.
  Qed.
  Lemma fftn_per n u : (0 < n)%nat -> fpow w n = 1 -> fftn K n w u n = fftn K n w u 0%nat.
  Proof.
    intros Hn H1. rewrite !fftn_z by auto. apply fsum_ext. intros j Hj. f_equal. apply (zpow_period K n w _ _ Hn H1).
    replace (- (Z.of_nat j * Z.of_nat n))%Z with (- (Z.of_nat j * Z.of_nat 0) + (- Z.of_nat j) * Z.of_nat n)%Z by lia.
    rewrite Z.mod_add by lia. reflexivity.
  Qed.
  Lemma fftn_herm n u k : (0 < n)%nat -> fpow w n = 1 -> (forall j, (j < n)%nat -> conj (u j) = u j) -> (k < n)%nat ->
    hermitian n (fftn K n w u) k = fftn K n w u k.
  Proof.
    intros Hn H1 Hu Hk. rewrite herm_eq. destruct (Nat.eqb_spec k 0) as [->|].
    - apply re_real. rewrite (fftn_conj n) by (auto; lia). rewrite Nat.sub_0_r. apply fftn_per; auto.
    - destruct (Nat.ltb_spec (2 * k) n); [reflexivity|]. destruct (Nat.eqb_spec (2 * k) n) as [E|].
      + apply re_real. rewrite (fftn_conj n) by (auto; lia). f_equal. lia.
      + rewrite (fftn_conj n) by (auto; lia). f_equal. lia.
  Qed.
  End Root.

  (** ** padding of half-complex arrays *)
  Lemma pyidx_pos' L h : (h <= L)%nat -> pyidx L (Z.of_nat h) = h.
  Proof. apply pyidx_pos. Qed.
  Lemma pad_r2c_closed N Np c : (2 <= N)%nat -> (N < Np)%nat -> exists p, pad_r2c K conj N Np c = Some p /\
    forall m, (m < Np)%nat -> hermitian Np p m = coef N (hermitian N c) (fftfreq Np m).
  Proof.
    intros HN HNp. unfold pad_r2c, slice_op. Zdiv2 N. Zdiv2 Np. Zdiv2 (Np - 1)%nat.
    set (h := (N / 2)%nat) in *. assert (Hh : (1 <= h)%nat) by lia.
    rewrite !pyidx_0, !pyidx_pos, !Nat.sub_0_r, !Nat.eqb_refl by lia. unfold bind.
    replace (h + 1 - 1)%nat with h by lia.
    eexists. split; [reflexivity|]. intros m Hm. rewrite fftfreq_eq by lia. rewrite herm_eq.
    set (Q := if (N mod 2 =? 0)%nat then _ else _).
    assert (Q1 : forall i, (i <= h)%nat -> Q i = if ((N mod 2 =? 0) && (i =? h))%nat then re (c h) * (1 / (1 + 1)) else c i).
    { intros i Hi. unfold Q. destruct (Nat.eqb_spec (N mod 2) 0); cbn [andb].
      - destruct (Nat.eqb_spec i h) as [->|].
        + rewrite upd_same. nb; cbn [andb]. replace (0 + (h - 0))%nat with h by lia. reflexivity.
        + rewrite upd_other by auto. nb; cbn [andb]. f_equal. lia.
      - nb; cbn [andb]. f_equal. lia. }
    assert (Q2 : forall i, (h < i)%nat -> Q i = 0).
    { intros i Hi. unfold Q. destruct (Nat.eqb_spec (N mod 2) 0); rewrite ?upd_other by lia; nb; reflexivity. }
    clearbody Q. unfold FourierSpec.coef. fold h.
    destruct (Nat.eqb_spec m 0) as [->|Hm0].
    { rewrite Q1 by lia. destruct (Nat.eqb_spec 0 h); [lia|]. rewrite andb_false_r.
      nb; change (Z.of_nat 0 mod Z.of_nat N)%Z with (0 mod Z.of_nat N)%Z; rewrite Z.mod_0_l by lia; change (Z.to_nat 0) with 0%nat; rewrite herm_eq; cbn [Nat.eqb]; ring. }
    destruct (Nat.ltb_spec (2 * m) Np) as [L|L].
    - destruct (Nat.ltb_spec m ((Np - 1) / 2 + 1)); [|lia].
      destruct (Z.leb_spec (Z.abs (Z.of_nat m)) (Z.of_nat h)).
      + rewrite Q1 by lia. rewrite Z.mod_small, Nat2Z.id by lia. rewrite herm_eq.
        destruct (Nat.eqb_spec (N mod 2) 0); cbn [andb].
        * destruct (Nat.eqb_spec m h) as [->|].
          -- nb. ring.
          -- nb. ring.
        * nb. ring.
      + rewrite Q2 by lia. reflexivity.
    - destruct (Nat.eqb_spec (2 * m) Np) as [E|E].
      + rewrite Q2 by lia. destruct (Nat.ltb_spec m ((Np - 1) / 2 + 1)); [lia|].
        destruct (Z.leb_spec (Z.abs (Z.of_nat m - Z.of_nat Np)) (Z.of_nat h)); [lia|].
        apply re_real. apply conj_0.
      + destruct (Nat.ltb_spec m ((Np - 1) / 2 + 1)); [lia|].
        destruct (Z.leb_spec (Z.abs (Z.of_nat m - Z.of_nat Np)) (Z.of_nat h)).
        * rewrite Q1 by lia. rewrite mod_neg by lia.
          replace (Z.to_nat (Z.of_nat m - Z.of_nat Np + Z.of_nat N)) with (N - (Np - m))%nat by lia.
          rewrite herm_eq.
          destruct (Nat.eqb_spec (N mod 2) 0); cbn [andb].
          -- destruct (Nat.eqb_spec (Np - m) h) as [Eh|].
             ++ nb. rewrite conj_mul, conj_half, conj_re. replace (N - (Np - m))%nat with h by lia. ring.
             ++ nb. replace (N - (N - (Np - m)))%nat with (Np - m)%nat by lia. ring.
          -- nb. replace (N - (N - (Np - m)))%nat with (Np - m)%nat by lia. ring.
        * rewrite Q2 by lia. apply conj_0.
  Qed.
  Lemma irfftn_herm n w c j : irfftn K conj n w c j = ifftn K n w (hermitian n c) j.
  Proof. apply fsum_ext. intros k Hk. rewrite herm_eq. reflexivity. Qed.

  (** backward of R2C is backward of C2C of the hermitian coefficients *)
  Lemma backward_r2c_herm N Np w c : (2 <= N)%nat -> (N <= Np)%nat -> fpow w Np = 1 -> exists u u',
    backward_r2c K conj N Np w false c = Some u /\ backward_c2c K N Np w false (hermitian N c) = Some u' /\
    forall j, u j = u' j.
  Proof.
    intros HN HNp H1. unfold backward_r2c, backward_c2c. destruct (Nat.eqb_spec Np N) as [->|Hne].
    - eexists; eexists; split; [reflexivity|]; split; [reflexivity|]. intros j. apply irfftn_herm.
    - destruct (pad_r2c_closed N Np c HN ltac:(lia)) as [p [Ep Hp]].
      destruct (pad_closed K N Np (hermitian N c) HN ltac:(lia)) as [q [Eq Hq]]. rewrite Ep, Eq.
      eexists; eexists; split; [reflexivity|]; split; [reflexivity|]. intros j. rewrite irfftn_herm.
      apply ifftn_ext. intros k Hk. rewrite Hp, Hq by auto. reflexivity.
  Qed.
  (** forward of R2C of real values *)
  Lemma forward_r2c_c2c N Np w u : (2 <= N)%nat -> (N <= Np)%nat -> w <> 0 -> conj w = finv w -> fpow w Np = 1 ->
    (forall j, (j < Np)%nat -> conj (u j) = u j) -> exists t t',
    forward_r2c K conj N Np w u = Some t /\ forward_c2c K N Np w u = Some t' /\
    forall k, (k <= N / 2)%nat -> t k = t' k.
  Proof.
    intros HN HNp Hw cw H1 Hu. unfold forward_r2c. destruct (Nat.eqb_spec Np N) as [->|Hne].
    - unfold forward_c2c. rewrite Nat.eqb_refl. eexists; eexists; split; [reflexivity|]; split; [reflexivity|]. reflexivity.
    - destruct (forward_pad K N Np w u HN ltac:(lia)) as [t' [E' Ht']]. rewrite E'.
      unfold trunc_r2c, slice_op. Zdiv2 N. Zdiv2 Np. Zdiv2 (N - 1)%nat. set (h := (N / 2)%nat) in *.
      rewrite !pyidx_0, !pyidx_pos, !Nat.sub_0_r, !Nat.eqb_refl by lia. unfold bind.
      replace (h + 1 - 1)%nat with h by lia.
      eexists; exists t'; split; [reflexivity|]; split; [reflexivity|]. intros k Hk. cbv beta.
      rewrite Ht' by lia. f_equal. change (rfftn K Np w u) with (fftn K Np w u).
      rewrite fftfreq_eq by lia.
      destruct (Nat.eqb_spec (N mod 2) 0); cbn [andb].
      + destruct (Nat.eqb_spec k h) as [->|].
        * rewrite upd_same. nb. cbn [andb]. replace (0 + (h - 0))%nat with h by lia. unfold FourierModel.re.
          rewrite (fftn_conj w Hw cw Np) by (auto; lia). field. auto.
        * rewrite upd_other by auto. nb; cbn [andb]. rewrite Z.mod_small, Nat2Z.id by lia. f_equal. lia.
      + nb; cbn [andb]. rewrite Z.mod_small, Nat2Z.id by lia. f_equal. lia.
  Qed.

  (** values of hermitian coefficients are real *)
  Lemma herm_conj N c k : (0 < k < N)%nat -> conj (hermitian N c k) = hermitian N c (N - k)%nat.
  Proof.
    intros Hk. rewrite !herm_eq. nb; rewrite ?conj_conj, ?conj_re; try reflexivity; f_equal; f_equal; lia.
  Qed.
  Lemma herm_0_real N c : conj (hermitian N c 0) = hermitian N c 0%nat.
  Proof. rewrite herm_eq. apply conj_re. Qed.
  Lemma coef_herm_conj N c f : (2 <= N)%nat -> conj (coef N (hermitian N c) f) = coef N (hermitian N c) (- f)%Z.
  Proof.
    intros HN. unfold FourierSpec.coef. rewrite Z.abs_opp. Zdiv2 N.
    destruct (Z.leb_spec (Z.abs f) (Z.of_nat (N / 2))); [|apply conj_0].
    rewrite conj_mul. f_equal.
    - destruct (N mod 2 =? 0)%nat; [|apply conj_1]. destruct (Z.abs f =? Z.of_nat (N / 2))%Z; [apply conj_half | apply conj_1].
    - destruct (Z.eq_dec f 0) as [->|]; [apply herm_0_real|].
      destruct (Z.ltb_spec 0 f).
      + rewrite (mod_neg N (- f)) by lia. rewrite Z.mod_small by lia. rewrite herm_conj by lia. f_equal. lia.
      + rewrite (mod_neg N f) by lia. rewrite Z.mod_small by lia. rewrite herm_conj by lia. f_equal. lia.
  Qed.
  Lemma bandsum_rev h (F : Z -> K) : bandsum h F = bandsum h (fun f => F (- f)%Z).
  Proof.
    unfold FourierSpec.bandsum. set (n := (2 * h + 1)%nat).
    assert (G : forall n (g : nat -> K), fsum n g = fsum n (fun t => g (n - 1 - t)%nat)).
    { clear. intros n g. revert g. induction n as [|n IH]; intros g; [reflexivity|].
      rewrite (fsum_S K n g), IH. change (S n) with (1 + n)%nat. rewrite fsum_split.
      rewrite fsum_S. change (fsum 0 _) with (0 : K).
      match goal with |- ?a + ?b = 0 + ?c + ?d => assert (E1 : b = c) by (f_equal; lia); assert (E2 : a = d) by (apply fsum_ext; intros; f_equal; lia) end.
      rewrite E1, E2. ring. }
    rewrite G. apply fsum_ext. intros t Ht. f_equal. unfold n in *. lia.
  Qed.
  Lemma conj_bandsum h (F : Z -> K) : conj (bandsum h F) = bandsum h (fun f => conj (F f)).
  Proof. apply conj_sum. Qed.
  Lemma band_real N c w j : (2 <= N)%nat -> w <> 0 -> conj w = finv w ->
    let v := bandsum (N / 2) (fun f => coef N (hermitian N c) f * zpow w (f * j)) in conj v = v.
  Proof.
    intros HN Hw cw v. unfold v. rewrite conj_bandsum, bandsum_rev. apply bandsum_ext. intros f Hf.
    rewrite conj_mul, coef_herm_conj, Z.opp_involutive by auto. rewrite conj_zpow by auto. f_equal. f_equal. lia.
  Qed.
  Lemma backward_r2c_real N w c j : (0 < N)%nat -> w <> 0 -> conj w = finv w -> fpow w N = 1 ->
    conj (irfftn K conj N w c j) = irfftn K conj N w c j.
  Proof.
    intros HN Hw cw H1. rewrite irfftn_herm, ifftn_z, conj_sum.
    destruct N as [|n]; [lia|]. change (S n) with (1 + n)%nat at 1 3. rewrite !fsum_split. f_equal.
    - rewrite !fsum_S. change (fsum 0 _) with (0 : K). f_equal. rewrite conj_mul, herm_0_real. f_equal.
      rewrite conj_zpow by auto. f_equal. lia.
    - assert (G : forall n (g : nat -> K), fsum n g = fsum n (fun t => g (n - 1 - t)%nat)).
      { clear. intros n g. revert g. induction n as [|n IH]; intros g; [reflexivity|].
        rewrite (fsum_S K n g), IH. change (S n) with (1 + n)%nat. rewrite fsum_split.
        rewrite fsum_S. change (fsum 0 _) with (0 : K).
        match goal with |- ?a + ?b = 0 + ?c + ?d => assert (E1 : b = c) by (f_equal; lia); assert (E2 : a = d) by (apply fsum_ext; intros; f_equal; lia) end.
        rewrite E1, E2. ring. }
      rewrite G. apply fsum_ext. intros t Ht. rewrite conj_mul, herm_conj by lia. f_equal; [f_equal; lia|].
      rewrite conj_zpow by auto. apply (zpow_period K (S n) w _ _ ltac:(lia) H1).
      replace (Z.of_nat j * Z.of_nat (1 + t))%Z with (- (Z.of_nat j * Z.of_nat (1 + (n - 1 - t))) + Z.of_nat j * Z.of_nat (S n))%Z by nia.
      rewrite Z.mod_add by lia. reflexivity.
  Qed.

  (** ** R2C convolution *)
  Lemma forward_c2c_ext N Np w u u' : (forall j, (j < Np)%nat -> u j = u' j) -> (2 <= N)%nat -> (N < Np)%nat -> exists t t',
    forward_c2c K N Np w u = Some t /\ forward_c2c K N Np w u' = Some t' /\ forall k, (k < N)%nat -> t k = t' k.
  Proof.
    intros Hu HN HNp. destruct (forward_pad K N Np w u HN HNp) as [t [E Ht]]. destruct (forward_pad K N Np w u' HN HNp) as [t' [E' Ht']].
    exists t, t'. repeat (split; auto). intros k Hk. rewrite Ht, Ht' by auto.
    rewrite !(fftn_ext K Np w u u') by auto. reflexivity.
  Qed.
  Lemma convolve_r2c_c2c N Np w u v : (2 <= N)%nat -> (N < Np)%nat -> w <> 0 -> conj w = finv w -> fpow w Np = 1 -> exists r r',
    convolve_fast_r2c K conj N Np w u v = Some r /\
    convolve_fast_c2c K N Np w (hermitian N u) (hermitian N v) = Some r' /\
    forall k, (k <= N / 2)%nat -> r k = r' k.
  Proof.
    intros HN HNp Hw cw H1.
    destruct (backward_r2c_herm N Np w u HN ltac:(lia) H1) as [a [a' [Ea [Ea' Ha]]]].
    destruct (backward_r2c_herm N Np w v HN ltac:(lia) H1) as [b [b' [Eb [Eb' Hb]]]].
    unfold convolve_fast_r2c, convolve_fast_c2c. rewrite Ea, Eb, Ea', Eb'. unfold bind.
    destruct (backward_pad K N Np w (hermitian N u) HN HNp H1) as [a2 [Ea2 Ha2]].
    destruct (backward_pad K N Np w (hermitian N v) HN HNp H1) as [b2 [Eb2 Hb2]].
    rewrite Ea' in Ea2. injection Ea2 as <-. rewrite Eb' in Eb2. injection Eb2 as <-.
    assert (Ra : forall j, (j < Np)%nat -> conj (a j * b j) = a j * b j).
    { intros j Hj. rewrite conj_mul, Ha, Hb, Ha2, Hb2, !band_real by auto. reflexivity. }
    destruct (forward_r2c_c2c N Np w (fun j => a j * b j) HN ltac:(lia) Hw cw H1 Ra) as [t [t' [Et [Et' Ht]]]].
    destruct (forward_c2c_ext N Np w (fun j => a j * b j) (fun j => a' j * b' j)) as [s [s' [Es [Es' Hs]]]]; auto.
    { intros j Hj. rewrite Ha, Hb. reflexivity. }
    rewrite Et' in Es. injection Es as <-. exists t, s'. repeat (split; auto).
    intros k Hk. rewrite Ht by auto. apply Hs. Zdiv2 N. lia.
  Qed.
  Lemma halved_real_coef N u m : (2 <= N)%nat -> conj (u 0%nat) = u 0%nat -> (N mod 2 = 0%nat -> conj (u (N / 2)%nat) = u (N / 2)%nat) ->
    (Z.abs m <= Z.of_nat (N / 2))%Z -> halved_real K conj N u m = coef N (hermitian N u) m.
  Proof.
    intros HN H0 Hh Hm. unfold halved_real, FourierSpec.coef. cbv zeta. Zdiv2 N.
    destruct (Z.leb_spec (Z.abs m) (Z.of_nat (N / 2))); [|lia].
    destruct (Z.leb_spec 0 m).
    - rewrite Z.mod_small by lia. rewrite Z.abs_eq by lia. rewrite herm_eq.
      destruct (Nat.eqb_spec (N mod 2) 0) as [Ev|Od].
      + destruct (Z.eqb_spec m (Z.of_nat (N / 2))) as [->|].
        * rewrite Nat2Z.id. nb. rewrite re_real by auto. ring.
        * nb; [|ring]. rewrite re_real by auto. replace (Z.to_nat m) with 0%nat by lia. ring.
      + nb; [|ring]. rewrite re_real by auto. replace (Z.to_nat m) with 0%nat by lia. ring.
    - rewrite mod_neg by lia. rewrite herm_eq.
      destruct (Nat.eqb_spec (N mod 2) 0) as [Ev|Od].
      + destruct (Z.eqb_spec (Z.abs m) (Z.of_nat (N / 2))) as [E|].
        * nb. replace (Z.to_nat (m + Z.of_nat N)) with (N / 2)%nat by lia. rewrite re_real by auto.
          rewrite E, Nat2Z.id. ring.
        * nb. replace (N - Z.to_nat (m + Z.of_nat N))%nat with (Z.to_nat (Z.abs m)) by lia. ring.
      + nb. replace (N - Z.to_nat (m + Z.of_nat N))%nat with (Z.to_nat (Z.abs m)) by lia. ring.
  Qed.
  Lemma convolve_real_closed N u v p : (2 <= N)%nat ->
    conj (u 0%nat) = u 0%nat -> (N mod 2 = 0%nat -> conj (u (N / 2)%nat) = u (N / 2)%nat) ->
    conj (v 0%nat) = v 0%nat -> (N mod 2 = 0%nat -> conj (v (N / 2)%nat) = v (N / 2)%nat) ->
    (p <= 2 * (N / 2))%nat ->
    convolve_real_1D K conj N u v p = linconv N (hermitian N u) (hermitian N v) (Z.of_nat p).
  Proof.
    intros HN U0 Uh V0 Vh Hp. unfold convolve_real_1D. cbv zeta. rewrite oddlen_eq. unfold oddlen. set (h := (N / 2)%nat).
    set (fr := fftfreq (2 * h + 1)).
    set (Pf := fun a b => if (0 <=? fr a + fr b)%Z then Some (Z.to_nat (fr a + fr b)) else None).
    set (g := fun a b => halved_real K conj N u (fr a) * halved_real K conj N v (fr b)).
    transitivity (for_up (2 * h + 1) 0 (fun a uv => for_up (2 * h + 1) 0 (fun b uv =>
        match Pf a b with Some q => upd uv q (uv q + g a b) | None => uv end) uv) (fun _ => 0) p).
    { apply (f_equal (fun r : vec => r p)). apply for_up_ext. intros a s Ha. apply for_up_ext. intros b s' Hb. unfold Pf, g.
      destruct (0 <=? fr a + fr b)%Z; reflexivity. }
    rewrite loop_scatter2.
    transitivity (bandsum h (fun a => bandsum h (fun b =>
      if (a + b =? Z.of_nat p)%Z then coef N (hermitian N u) a * coef N (hermitian N v) b else 0))).
    - rewrite <- (sum_freq_odd K h). match goal with |- 0 + ?a = _ => transitivity a; [ring|] end.
      apply fsum_ext. intros a Ha. rewrite <- (sum_freq_odd K h). apply fsum_ext. intros b Hb.
      pose proof (fftfreq_odd_bound h a Ha). pose proof (fftfreq_odd_bound h b Hb).
      fold (fr a) in *. fold (fr b) in *. unfold Pf, g.
      rewrite !halved_real_coef by (auto; fold h; lia).
      destruct (Z.leb_spec 0 (fr a + fr b)); nb; reflexivity.
    - rewrite (gather K h (coef N (hermitian N u)) (coef N (hermitian N v)) (fun f => (f =? Z.of_nat p)%Z)).
      + refine (eq_trans (bandsum_pick K (2 * h) (Z.of_nat p) (linconv N (hermitian N u) (hermitian N v))) _).
        fold h in Hp. nb. reflexivity.
      + intros f Hf. apply coef_out. exact Hf.
  Qed.

  (** ** Parseval *)
  Notation abs2 := (abs2 K conj).
  Lemma parseval n w u : (0 < n)%nat -> prim_root n w -> conj w = finv w ->
    fsum n (fun k => abs2 (fftn K n w u k)) = fnat n * fsum n (fun j => abs2 (u j)).
  Proof.
    intros Hn Hp cw. pose proof (root_neq_0 K n w Hn (proj1 Hp)) as Hw. unfold FourierModel.abs2.
    rewrite (fsum_ext K n _ (fun k => fsum n (fun j => fftn K n w u k * conj (u j) * zpow w (Z.of_nat j * Z.of_nat k)))).
    2:{ intros k Hk. rewrite (fftn_z K n w u k Hw) at 2. rewrite conj_sum, <- fsum_scal. apply fsum_ext. intros j Hj.
        rewrite conj_mul, conj_zpow, Z.opp_involutive by auto. ring. }
    rewrite fsum_swap, <- fsum_scal. apply fsum_ext. intros j Hj.
    rewrite (fsum_ext K n _ (fun k => conj (u j) * (fftn K n w u k * zpow w (Z.of_nat j * Z.of_nat k)))) by (intros; ring).
    rewrite fsum_scal. rewrite <- ifftn_z. rewrite ifftn_fftn by auto. ring.
  Qed.

  (** ** the half-complex sum *)
  Lemma sum_half_full N (c : vec) :
    (0 < N)%nat -> (forall k, (0 < k < N)%nat -> c (N - k)%nat = c k) ->
    fsum N c = energy_aligned K N c.
  Proof.
    intros HN Hs. unfold energy_aligned, sum_from_to. cbv zeta. Zdiv2 N. set (h := (N / 2)%nat) in *.
    assert (G : forall n (g : nat -> K), fsum n g = fsum n (fun t => g (n - 1 - t)%nat)).
    { clear. intros n g. revert g. induction n as [|n IH]; intros g; [reflexivity|].
      rewrite (fsum_S K n g), IH. change (S n) with (1 + n)%nat. rewrite fsum_split.
      rewrite fsum_S. change (fsum 0 _) with (0 : K).
      match goal with |- ?a + ?b = 0 + ?c + ?d => assert (E1 : b = c) by (f_equal; lia); assert (E2 : a = d) by (apply fsum_ext; intros; f_equal; lia) end.
      rewrite E1, E2. ring. }
    destruct (Nat.eqb_spec (N mod 2) 0) as [Ev|Od].
    - replace N with (1 + ((h - 1) + (1 + (h - 1))))%nat at 1 by lia.
      rewrite !fsum_split. change (fsum 1 (fun i => ?g i)) with (0 + g 0%nat).
      rewrite (G _ (fun i => c (1 + (h - 1 + (1 + i)))%nat)).
      replace (h + 1 - 1 - 1)%nat with (h - 1)%nat by lia.
      rewrite (fsum_ext K (h - 1) (fun t => c (1 + (h - 1 + (1 + (h - 1 - 1 - t))))%nat) (fun t => c (1 + t)%nat)).
      2:{ intros t Ht. rewrite <- Hs by lia. f_equal. lia. }
      rewrite !fsum_S. change (fsum 0 _) with (0 : K). cbn [Nat.add]. replace (h + 1 - 1)%nat with h by lia.
      replace (S (h - 1 + 0))%nat with h by lia. ring.
    - replace N with (1 + (h + h))%nat at 1 by lia. rewrite !fsum_split.
      rewrite (G _ (fun i => c (1 + (h + i))%nat)).
      rewrite (fsum_ext K h (fun t => c (1 + (h + (h - 1 - t)))%nat) (fun t => c (1 + t)%nat)).
      2:{ intros t Ht. rewrite <- Hs by lia. f_equal. lia. }
      rewrite !fsum_S. change (fsum 0 _) with (0 : K). cbn [Nat.add]. replace (h + 1 - 1)%nat with h by lia. ring.
  Qed.

  (** ** ranks *)
  Fixpoint contiguous (from to : nat) (chunks : list (nat * nat)) : Prop :=
    match chunks with
    | [] => from = to
    | (a, b) :: r => a = from /\ (a < b)%nat /\ contiguous b to r
    end.
  (** weight of mode k in the energy *)
  Definition wgt (N k : nat) : K := if (k =? 0)%nat || ((N mod 2 =? 0)%nat && (k =? N / 2)%nat) then 1 else 1 + 1.
  Lemma energy_local_wgt N a b (f : vec) : (a < b)%nat -> (b <= N / 2 + 1)%nat -> (N mod 2 = 0%nat -> a + 2 <= b)%nat ->
    energy_local K N a b f = sum_from_to K a b (fun k => wgt N k * f k).
  Proof.
    intros Hab Hb He. unfold energy_local, sum_from_to. cbv zeta. Zdiv2 N.
    destruct (Nat.eqb_spec (N mod 2) 0) as [Ev|Od].
    - replace (b - a)%nat with (1 + ((b - a - 1 - 1) + 1))%nat at 4 by lia. rewrite !fsum_split.
      rewrite !fsum_S. change (fsum 0 _) with (0 : K). rewrite <- fsum_scal.
      rewrite (fsum_ext K (b - a - 1 - 1) (fun i => wgt N (a + (1 + i)) * f (a + (1 + i))%nat) (fun i => (1 + 1) * f (a + (1 + i))%nat)).
      2:{ intros i Hi. unfold wgt. nb; cbn [andb orb]; reflexivity. }
      unfold wgt. rewrite (proj2 (Nat.eqb_eq _ _) Ev). cbn [andb]. rewrite Nat.add_0_r.
      replace (a + (1 + (b - a - 1 - 1 + 0)))%nat with (b - 1)%nat by lia. replace (a + (b - a - 1))%nat with (b - 1)%nat by lia.
      nb; cbn [orb]; try ring.
    - replace (b - a)%nat with (1 + (b - a - 1))%nat at 2 by lia. rewrite fsum_split.
      rewrite !fsum_S. change (fsum 0 _) with (0 : K). rewrite <- fsum_scal.
      rewrite (fsum_ext K (b - a - 1) (fun i => wgt N (a + (1 + i)) * f (a + (1 + i))%nat) (fun i => (1 + 1) * f (a + (1 + i))%nat)).
      2:{ intros i Hi. unfold wgt. nb; cbn [andb orb]; reflexivity. }
      unfold wgt. rewrite (proj2 (Nat.eqb_neq _ _) Od). cbn [andb]. rewrite orb_false_r, Nat.add_0_r.
      nb; ring.
  Qed.
  Lemma sum_from_to_split a b c (f : vec) : (a <= b)%nat -> (b <= c)%nat -> sum_from_to K a c f = sum_from_to K a b f + sum_from_to K b c f.
  Proof.
    intros H1 H2. unfold sum_from_to. replace (c - a)%nat with ((b - a) + (c - b))%nat by lia. rewrite fsum_split. f_equal.
    apply fsum_ext. intros. f_equal. lia.
  Qed.
  Lemma contiguous_le from to ch : contiguous from to ch -> (from <= to)%nat.
  Proof. revert from. induction ch as [|[a b] r IH]; simpl; intros from H; [lia|]. destruct H as [-> [H1 H2]]. apply IH in H2. lia. Qed.
  Lemma energy_ranks_wgt N (f : vec) ch : forall from, (0 < N)%nat -> contiguous from (N / 2 + 1) ch ->
    (N mod 2 = 0%nat -> Forall (fun p => fst p + 2 <= snd p)%nat ch) ->
    energy_ranks K N ch f = sum_from_to K from (N / 2 + 1) (fun k => wgt N k * f k).
  Proof.
    induction ch as [|[a b] r IH]; intros from HN H He; cbn [energy_ranks].
    - cbn [contiguous] in H. subst from. unfold sum_from_to. rewrite Nat.sub_diag. reflexivity.
    - destruct H as [-> [H1 H2]]. pose proof (contiguous_le _ _ _ H2).
      rewrite (sum_from_to_split from b) by lia. rewrite energy_local_wgt; auto.
      + f_equal. apply IH; auto. intros Ev. specialize (He Ev). inversion He; auto.
      + intros Ev. specialize (He Ev). inversion He; auto.
  Qed.
  Lemma energy_aligned_wgt N (f : vec) : (0 < N)%nat ->
    energy_aligned K N f = sum_from_to K 0 (N / 2 + 1) (fun k => wgt N k * f k).
  Proof.
    intros HN. rewrite <- energy_local_wgt; [| lia | lia | Zdiv2 N; lia].
    unfold energy_aligned, energy_local. cbv zeta. rewrite !Nat.sub_0_r.
    destruct (N mod 2 =? 0)%nat; [| reflexivity]. rewrite !Nat.eqb_refl. reflexivity.
  Qed.
End P.
