(** FourierProofs4.v -- consequences used by FourierProperties.v. *)
From Coq Require Import Arith ZArith List Lia Bool Field.
From Verif Require Import Base Fld SparseModel FourierModel FourierSpec FourierProofs FourierProofs2 FourierProofs3.
Import ListNotations.
Local Open Scope nat_scope.

Section P.
  Variable K : Fld.
  Add Field KF4 : (flaws K).
  Notation vec := (nat -> K).
  Local Open Scope fld_scope.
  Notation zpow := (zpow K).
  Notation prim_root := (prim_root K).
  Notation bandsum := (bandsum K).
  Notation coef := (coef K).
  Notation linconv := (linconv K).
  Ltac Zdiv2 n := pose proof (Nat.div_mod n 2 ltac:(lia)); pose proof (Nat.mod_upper_bound n 2 ltac:(lia)).
  Ltac nb := repeat match goal with
    | |- context [(?a <=? ?b)%nat] => destruct (Nat.leb_spec a b); try lia
    | |- context [(?a <? ?b)%nat] => destruct (Nat.ltb_spec a b); try lia
    | |- context [(?a =? ?b)%nat] => destruct (Nat.eqb_spec a b); try lia
    | |- context [(?a <=? ?b)%Z] => destruct (Z.leb_spec a b); try lia
    | |- context [(?a <? ?b)%Z] => destruct (Z.ltb_spec a b); try lia
    | |- context [(?a =? ?b)%Z] => destruct (Z.eqb_spec a b); try lia
    end.

  Lemma fftfreq_inv n f : (0 < n)%nat -> (- Z.of_nat n <= 2 * f < Z.of_nat n)%Z ->
    (Z.to_nat (f mod Z.of_nat n) < n)%nat /\ fftfreq n (Z.to_nat (f mod Z.of_nat n)) = f.
  Proof.
    intros Hn Hf. pose proof (Z.mod_pos_bound f (Z.of_nat n) ltac:(lia)) as B. split; [lia|].
    rewrite fftfreq_eq by lia. Zdiv2 (n - 1)%nat.
    destruct (Z.ltb_spec f 0).
    - rewrite mod_neg by lia. nb.
    - rewrite Z.mod_small by lia. nb.
  Qed.

  Lemma coef_inner N c f : (Z.abs f < Z.of_nat (N / 2))%Z \/ ((N mod 2 = 1)%nat /\ (Z.abs f <= Z.of_nat (N / 2))%Z) ->
    coef N c f = c (Z.to_nat (f mod Z.of_nat N)).
  Proof.
    intros H. unfold FourierSpec.coef. destruct H as [H|[E H]].
    - nb; ring.
    - rewrite E. nb; ring.
  Qed.
  Lemma half_half (x : K) : (1 + 1 : K) <> 0 -> 1 / (1 + 1) * x + 1 / (1 + 1) * x = x.
  Proof. intros. field. auto. Qed.

  Lemma trunc_pad N Np c : (2 <= N)%nat -> (N < Np)%nat -> (1 + 1 : K) <> 0 ->
    exists p t, pad_c2c K N Np c = Some p /\ trunc_c2c K N Np p = Some t /\ forall i, (i < N)%nat -> t i = c i.
  Proof.
    intros HN HNp two. destruct (pad_closed K N Np c HN HNp) as [p [Ep Hp]].
    destruct (trunc_closed K N Np p HN HNp) as [t [Et Ht]]. exists p, t. repeat (split; auto).
    intros i Hi. rewrite Ht by auto. Zdiv2 N. Zdiv2 (N - 1)%nat. Zdiv2 (Np - 1)%nat.
    destruct (Nat.eqb_spec (N mod 2) 0) as [Ev|Od], (Nat.eqb_spec i (N / 2)) as [Ei|Ei]; cbn [andb].
    - rewrite !Hp by lia. rewrite !fftfreq_eq by lia. unfold FourierSpec.coef. nb.
      replace (Z.to_nat (Z.of_nat (N / 2) mod Z.of_nat N)) with i by (rewrite Z.mod_small by lia; lia).
      replace (Z.to_nat ((Z.of_nat (Np - N / 2) - Z.of_nat Np) mod Z.of_nat N)) with i by (rewrite mod_neg by lia; lia).
      apply half_half; auto.
    - pose proof (fftfreq_bound N i ltac:(lia) Hi). destruct (fftfreq_inv Np (fftfreq N i) ltac:(lia) ltac:(lia)) as [B E].
      rewrite Hp, E by auto. rewrite coef_inner.
      + rewrite fftfreq_mod by lia. f_equal. lia.
      + left. rewrite fftfreq_eq by lia. nb.
    - pose proof (fftfreq_bound N i ltac:(lia) Hi). destruct (fftfreq_inv Np (fftfreq N i) ltac:(lia) ltac:(lia)) as [B E].
      rewrite Hp, E by auto. rewrite coef_inner.
      + rewrite fftfreq_mod by lia. f_equal. lia.
      + right. split; [lia|]. rewrite fftfreq_eq by lia. nb.
    - pose proof (fftfreq_bound N i ltac:(lia) Hi). destruct (fftfreq_inv Np (fftfreq N i) ltac:(lia) ltac:(lia)) as [B E].
      rewrite Hp, E by auto. rewrite coef_inner.
      + rewrite fftfreq_mod by lia. f_equal. lia.
      + right. split; [lia|]. rewrite fftfreq_eq by lia. nb.
  Qed.

  (** the symmetric expansion takes the values of the unsymmetric one where z^N = 1 *)
  Lemma expansion_sym N c z : (2 <= N)%nat -> (1 + 1 : K) <> 0 -> z <> 0 -> (N mod 2 = 1%nat \/ fpow z N = 1) ->
    bandsum (N / 2) (fun f => coef N c f * zpow z f) = fsum N (fun k => c k * zpow z (fftfreq N k)).
  Proof.
    intros HN two Hz H. Zdiv2 N. Zdiv2 (N - 1)%nat. set (h := (N / 2)%nat) in *.
    assert (Hg : forall k, (k < N)%nat -> c k = c (Z.to_nat (fftfreq N k mod Z.of_nat N))).
    { intros k Hk. rewrite fftfreq_mod by lia. f_equal. lia. }
    rewrite (fsum_ext K N (fun k => c k * zpow z (fftfreq N k)) (fun k => (fun f => c (Z.to_nat (f mod Z.of_nat N)) * zpow z f) (fftfreq N k))).
    2:{ intros k Hk. rewrite (Hg k Hk) at 1. reflexivity. }
    rewrite (sum_freq K N (fun f => c (Z.to_nat (f mod Z.of_nat N)) * zpow z f)) by lia. fold h. unfold FourierSpec.bandsum.
    destruct (Nat.eqb_spec (N mod 2) 0) as [Ev|Od].
    - destruct H as [H|H]; [lia|].
      replace (2 * h + 1)%nat with (1 + ((N - 1) + 1))%nat by lia.
      cbv beta. replace (fsum N _) with (fsum (1 + (N - 1)) (fun t => c (Z.to_nat ((Z.of_nat t - Z.of_nat h) mod Z.of_nat N)) * zpow z (Z.of_nat t - Z.of_nat h))) by (f_equal; lia).
      rewrite fsum_split. rewrite (fsum_split K 1 (N - 1)), (fsum_split K (N - 1) 1).
      rewrite !fsum_S. change (fsum 0 _) with (0 : K).
      rewrite (fsum_ext K (N - 1) (fun i => coef N c (Z.of_nat (1 + i) - Z.of_nat h) * zpow z (Z.of_nat (1 + i) - Z.of_nat h))
        (fun i => c (Z.to_nat ((Z.of_nat (1 + i) - Z.of_nat h) mod Z.of_nat N)) * zpow z (Z.of_nat (1 + i) - Z.of_nat h))).
      2:{ intros i Hi. rewrite coef_inner; [reflexivity|]. left. fold h. lia. }
      replace (Z.of_nat (1 + (N - 1 + 0)) - Z.of_nat h)%Z with (Z.of_nat h) by lia.
      replace (Z.of_nat 0 - Z.of_nat h)%Z with (- Z.of_nat h)%Z by lia.
      assert (E1 : zpow z (Z.of_nat h) = zpow z (- Z.of_nat h)).
      { apply (zpow_period K N z _ _ ltac:(lia) H). rewrite (mod_neg N (- Z.of_nat h)), Z.mod_small by lia. lia. }
      assert (E2 : coef N c (Z.of_nat h) = 1 / (1 + 1) * c h).
      { unfold FourierSpec.coef. fold h. nb. rewrite Z.mod_small, Nat2Z.id by lia. reflexivity. }
      assert (E3 : coef N c (- Z.of_nat h) = 1 / (1 + 1) * c h).
      { unfold FourierSpec.coef. fold h. nb. rewrite mod_neg by lia. replace (Z.to_nat (- Z.of_nat h + Z.of_nat N)) with h by lia. reflexivity. }
      assert (E4 : c (Z.to_nat (- Z.of_nat h mod Z.of_nat N)) = c h).
      { rewrite mod_neg by lia. f_equal. lia. }
      rewrite E1, E2, E3, E4. field. auto.
    - replace (2 * h + 1)%nat with N by lia. apply fsum_ext. intros t Ht. rewrite coef_inner; [reflexivity|]. right. fold h. lia.
  Qed.
  Lemma padded_expansion N Np c z : (2 <= N)%nat -> (N < Np)%nat -> exists p, pad_c2c K N Np c = Some p /\
    fsum Np (fun m => p m * zpow z (fftfreq Np m)) = bandsum (N / 2) (fun f => coef N c f * zpow z f).
  Proof.
    intros HN HNp. destruct (pad_closed K N Np c HN HNp) as [p [Ep Hp]]. exists p. split; auto. Zdiv2 N.
    rewrite <- (sum_freq_band K Np (N / 2) (fun f => coef N c f * zpow z f)).
    - apply fsum_ext. intros m Hm. rewrite Hp by auto. reflexivity.
    - lia.
    - intros f Hf. rewrite coef_out by auto. ring.
  Qed.

  (** ** direct dealiasing *)
  Lemma dealias_c2c_spec N c i : (6 <= N)%nat -> (i < N)%nat ->
    dealias_c2c K N c i = if (Z.of_nat (N / 3) <=? Z.abs (fftfreq N i))%Z then 0 else c i.
  Proof.
    intros HN Hi. pose proof (Nat.div_mod N 3 ltac:(lia)). pose proof (Nat.mod_upper_bound N 3 ltac:(lia)).
    unfold dealias_c2c. rewrite pyidx_pos by lia.
    replace (- Z.of_nat (N / 3) + 1)%Z with (- Z.of_nat (N / 3 - 1))%Z by lia. rewrite pyidx_neg by lia.
    rewrite fftfreq_eq by lia. Zdiv2 (N - 1)%nat. nb; cbn [andb]; reflexivity.
  Qed.
  Lemma dealias_r2c_spec N c i : (3 <= N)%nat -> (i <= N / 2)%nat ->
    dealias_r2c K N c i = if (N / 3 <=? i)%nat then 0 else c i.
  Proof.
    intros HN Hi. pose proof (Nat.div_mod N 3 ltac:(lia)). pose proof (Nat.mod_upper_bound N 3 ltac:(lia)). Zdiv2 N.
    unfold dealias_r2c. rewrite pyidx_pos by lia. nb; cbn [andb]; reflexivity.
  Qed.

  (** ** aliasing of the Nyquist mode under the 3/2 rule *)
  Lemma linconv_edge N u v : (2 <= N)%nat -> (N mod 2 = 0)%nat ->
    linconv N u v (- Z.of_nat (2 * (N / 2))) = 1 / (1 + 1) * (1 / (1 + 1)) * (u (N / 2)%nat * v (N / 2)%nat) /\
    linconv N u v (Z.of_nat (2 * (N / 2))) = 1 / (1 + 1) * (1 / (1 + 1)) * (u (N / 2)%nat * v (N / 2)%nat).
  Proof.
    intros HN Ev. Zdiv2 N. set (h := (N / 2)%nat) in *.
    assert (Eh : forall c, coef N c (Z.of_nat h) = 1 / (1 + 1) * c h).
    { intros c. unfold FourierSpec.coef. fold h. nb. rewrite Z.mod_small, Nat2Z.id by lia. reflexivity. }
    assert (Em : forall c, coef N c (- Z.of_nat h) = 1 / (1 + 1) * c h).
    { intros c. unfold FourierSpec.coef. fold h. nb. rewrite mod_neg by lia.
      replace (Z.to_nat (- Z.of_nat h + Z.of_nat N)) with h by lia. reflexivity. }
    unfold FourierSpec.linconv. fold h. split.
    - rewrite (bandsum_ext K h _ (fun a => if (a =? - Z.of_nat h)%Z then (1 / (1 + 1) * u h) * (1 / (1 + 1) * v h) else 0)).
      + rewrite (bandsum_pick K h (- Z.of_nat h) (fun _ => 1 / (1 + 1) * u h * (1 / (1 + 1) * v h))). nb. ring.
      + intros a Ha. nb.
        * subst a. replace (- Z.of_nat (2 * h) - - Z.of_nat h)%Z with (- Z.of_nat h)%Z by lia. rewrite !Em. reflexivity.
        * rewrite (coef_out K N v) by (fold h; lia). ring.
    - rewrite (bandsum_ext K h _ (fun a => if (a =? Z.of_nat h)%Z then (1 / (1 + 1) * u h) * (1 / (1 + 1) * v h) else 0)).
      + rewrite (bandsum_pick K h (Z.of_nat h) (fun _ => 1 / (1 + 1) * u h * (1 / (1 + 1) * v h))). nb. ring.
      + intros a Ha. nb.
        * subst a. replace (Z.of_nat (2 * h) - Z.of_nat h)%Z with (Z.of_nat h)%Z by lia. rewrite !Eh. reflexivity.
        * rewrite (coef_out K N v) by (fold h; lia). ring.
  Qed.
  Lemma bandsum_add h (F G : Z -> K) : bandsum h (fun f => F f + G f) = bandsum h F + bandsum h G.
  Proof. apply fsum_add. Qed.
  Lemma alias_nyquist h (G : Z -> K) : (1 <= h)%nat ->
    alias K (3 * h) (2 * h) G (Z.of_nat h) = G (Z.of_nat h) + G (- Z.of_nat (2 * h))%Z /\
    alias K (3 * h) (2 * h) G (- Z.of_nat h) = G (- Z.of_nat h)%Z + G (Z.of_nat (2 * h)).
  Proof.
    intros Hh. unfold alias. split.
    - rewrite (bandsum_ext K (2 * h) _ (fun f => (if (f =? Z.of_nat h)%Z then G f else 0) + (if (f =? - Z.of_nat (2 * h))%Z then G f else 0))).
      + rewrite bandsum_add, !bandsum_pick. nb. reflexivity.
      + intros f Hf. destruct (Z.eqb_spec ((f - Z.of_nat h) mod Z.of_nat (3 * h)) 0) as [E|E].
        * apply Z.mod_divide in E; [|lia]. destruct E as [q E].
          assert (q = 0 \/ q = -1)%Z as [-> | ->] by nia; nb; ring.
        * nb; [exfalso; apply E; subst f; rewrite Z.sub_diag, Z.mod_0_l by lia; reflexivity| |ring].
          exfalso. apply E. replace (f - Z.of_nat h)%Z with (0 + (-1) * Z.of_nat (3 * h))%Z by lia. rewrite Z.mod_add, Z.mod_0_l by lia. reflexivity.
    - rewrite (bandsum_ext K (2 * h) _ (fun f => (if (f =? - Z.of_nat h)%Z then G f else 0) + (if (f =? Z.of_nat (2 * h))%Z then G f else 0))).
      + rewrite bandsum_add, !bandsum_pick. nb. reflexivity.
      + intros f Hf. destruct (Z.eqb_spec ((f - - Z.of_nat h) mod Z.of_nat (3 * h)) 0) as [E|E].
        * apply Z.mod_divide in E; [|lia]. destruct E as [q E].
          assert (q = 0 \/ q = 1)%Z as [-> | ->] by nia; nb; ring.
        * nb; [exfalso; apply E; subst f; rewrite Z.sub_diag, Z.mod_0_l by lia; reflexivity| |ring].
          exfalso. apply E. replace (f - - Z.of_nat h)%Z with (0 + 1 * Z.of_nat (3 * h))%Z by lia. rewrite Z.mod_add, Z.mod_0_l by lia. reflexivity.
  Qed.
End P.
