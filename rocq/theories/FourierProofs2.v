(** FourierProofs2.v -- transforms with padding, aliasing, convolution, Parseval. *)
From Coq Require Import Arith ZArith List Lia Bool Field.
From Verif Require Import Base Fld SparseModel FourierModel FourierSpec FourierProofs.
Local Open Scope nat_scope.

Section P.
  Variable K : Fld.
  Add Field KF2 : (flaws K).
  Notation vec := (nat -> K).
  Local Open Scope fld_scope.
  Notation zpow := (zpow K).
  Notation prim_root := (prim_root K).
  Notation bandsum := (bandsum K).
  Notation coef := (coef K).
  Notation linconv := (linconv K).

  Ltac Zdiv2 n := pose proof (Nat.div_mod n 2 ltac:(lia)); pose proof (Nat.mod_upper_bound n 2 ltac:(lia)).

  (** ** trigonometric sums on a grid *)
  Lemma ifftn_ext n w c c' j : (forall k, (k < n)%nat -> c k = c' k) -> ifftn K n w c j = ifftn K n w c' j.
  Proof. intros H. apply fsum_ext. intros k Hk. rewrite H by auto. reflexivity. Qed.
  Lemma fftn_ext n w c c' j : (forall k, (k < n)%nat -> c k = c' k) -> fftn K n w c j = fftn K n w c' j.
  Proof. intros H. apply fsum_ext. intros k Hk. rewrite H by auto. reflexivity. Qed.

  Lemma ifftn_freq n w c j : (0 < n)%nat -> fpow w n = (1 : K) ->
    ifftn K n w c j = fsum n (fun k => c k * zpow w (fftfreq n k * Z.of_nat j)).
  Proof.
    intros Hn H1. rewrite ifftn_z. apply fsum_ext. intros k Hk. f_equal.
    apply (zpow_period K n w _ _ Hn H1). rewrite (Z.mul_mod (fftfreq n k)) by lia.
    rewrite fftfreq_mod by auto. rewrite Z.mul_mod_idemp_r by lia. f_equal. lia.
  Qed.
  Lemma ifftn_band n w h p (G : Z -> K) j : (2 * h < n)%nat -> fpow w n = (1 : K) ->
    (forall f, (Z.of_nat h < Z.abs f)%Z -> G f = 0) ->
    (forall m, (m < n)%nat -> p m = G (fftfreq n m)) ->
    ifftn K n w p j = bandsum h (fun f => G f * zpow w (f * Z.of_nat j)).
  Proof.
    intros Hn H1 HG Hp. rewrite ifftn_freq by (auto; lia).
    rewrite (fsum_ext K n _ (fun k => (fun f => G f * zpow w (f * Z.of_nat j)) (fftfreq n k))).
    2:{ intros k Hk. rewrite Hp by auto. reflexivity. }
    rewrite (sum_freq_band K n h (fun f => G f * zpow w (f * Z.of_nat j))); auto.
    intros f Hf. rewrite HG by auto. ring.
  Qed.
  (** sum of the coefficients that alias to m *)
  Lemma fftn_band n w H (G : Z -> K) m : (0 < n)%nat -> prim_root n w ->
    fftn K n w (fun j => bandsum H (fun f => G f * zpow w (f * Z.of_nat j))) m =
    fnat n * bandsum H (fun f => if ((f - Z.of_nat m) mod Z.of_nat n =? 0)%Z then G f else 0).
  Proof.
    intros Hn Hp. pose proof (root_neq_0 _ _ _ Hn (proj1 Hp)) as Hw. rewrite fftn_z by auto.
    unfold FourierSpec.bandsum.
    rewrite (fsum_ext K n _ (fun j => fsum (2 * H + 1) (fun t => G (Z.of_nat t - Z.of_nat H)%Z * zpow w ((Z.of_nat t - Z.of_nat H - Z.of_nat m) * Z.of_nat j)))).
    2:{ intros j Hj. rewrite <- fsum_scal_r. apply fsum_ext. intros t Ht.
        replace ((Z.of_nat t - Z.of_nat H - Z.of_nat m) * Z.of_nat j)%Z
          with ((Z.of_nat t - Z.of_nat H) * Z.of_nat j + - (Z.of_nat j * Z.of_nat m))%Z by lia.
        rewrite zpow_add by auto. ring. }
    rewrite fsum_swap, <- fsum_scal. apply fsum_ext. intros t Ht. rewrite fsum_scal, orth by auto.
    match goal with |- context [Z.eqb ?a ?b] => destruct (Z.eqb a b) end; ring.
  Qed.
  (** products of band-limited sums *)
  Lemma bandsum_shift h a (Q : Z -> K) : (Z.abs a <= Z.of_nat h)%Z ->
    (forall f, (Z.of_nat h < Z.abs f)%Z -> Q f = 0) ->
    bandsum h Q = bandsum (2 * h) (fun f => Q (f - a)%Z).
  Proof.
    intros Ha HQ. unfold FourierSpec.bandsum.
    replace (2 * (2 * h) + 1)%nat with (Z.to_nat (Z.of_nat h + a) + ((2 * h + 1) + Z.to_nat (Z.of_nat h - a)))%nat by lia.
    rewrite (fsum_split K (Z.to_nat (Z.of_nat h + a))), (fsum_split K (2 * h + 1)).
    rewrite (fsum_zero K (Z.to_nat (Z.of_nat h + a))) by (intros i Hi; apply HQ; lia).
    rewrite (fsum_zero K (Z.to_nat (Z.of_nat h - a))) by (intros i Hi; apply HQ; lia).
    match goal with |- _ = 0 + (?a + 0) => transitivity a; [|ring] end.
    apply fsum_ext. intros t Ht. f_equal. lia.
  Qed.
  Lemma bandsum_prod h w s (A B : Z -> K) : w <> 0 ->
    (forall f, (Z.of_nat h < Z.abs f)%Z -> B f = 0) ->
    bandsum h (fun f => A f * zpow w (f * s)) * bandsum h (fun f => B f * zpow w (f * s)) =
    bandsum (2 * h) (fun f => bandsum h (fun a => A a * B (f - a)%Z) * zpow w (f * s)).
  Proof.
    intros Hw HB. unfold FourierSpec.bandsum at 1. rewrite <- fsum_scal_r.
    rewrite (fsum_ext K _ _ (fun t => bandsum (2 * h) (fun f =>
       A (Z.of_nat t - Z.of_nat h)%Z * B (f - (Z.of_nat t - Z.of_nat h))%Z * zpow w (f * s)))).
    2:{ intros t Ht. set (a := (Z.of_nat t - Z.of_nat h)%Z).
        rewrite (bandsum_shift h a) by (try (unfold a; lia); intros f Hf; rewrite HB by auto; ring).
        rewrite <- bandsum_scal. apply bandsum_ext. intros f Hf.
        replace (f * s)%Z with (a * s + (f - a) * s)%Z by lia. rewrite zpow_add by auto. ring. }
    unfold FourierSpec.bandsum. rewrite fsum_swap. apply fsum_ext. intros t Ht.
    rewrite <- fsum_scal_r. apply fsum_ext. intros a Ha. reflexivity.
  Qed.

  (** ** forward and backward with padding *)
  Lemma backward_pad N Np w c : (2 <= N)%nat -> (N < Np)%nat -> fpow w Np = (1 : K) ->
    exists u, backward_c2c K N Np w false c = Some u /\
    forall j, u j = bandsum (N / 2) (fun f => coef N c f * zpow w (f * Z.of_nat j)).
  Proof.
    intros HN HNp H1. unfold backward_c2c. destruct (Nat.eqb_spec Np N); [lia|].
    destruct (pad_closed K N Np c HN HNp) as [p [E Hp]]. rewrite E. eexists. split; [reflexivity|].
    intros j. apply ifftn_band; auto.
    - Zdiv2 N. lia.
    - intros f Hf. apply coef_out. auto.
  Qed.
  Lemma forward_pad N Np w u : (2 <= N)%nat -> (N < Np)%nat ->
    exists t, forward_c2c K N Np w u = Some t /\
    forall i, (i < N)%nat -> t i = (if (N mod 2 =? 0)%nat && (i =? N / 2)%nat
      then fftn K Np w u (N / 2)%nat + fftn K Np w u (Np - N / 2)%nat
      else fftn K Np w u (Z.to_nat (fftfreq N i mod Z.of_nat Np))) * finv (fnat Np).
  Proof.
    intros HN HNp. unfold forward_c2c. destruct (Nat.eqb_spec Np N); [lia|].
    destruct (trunc_closed K N Np (fftn K Np w u) HN HNp) as [t [E Ht]]. rewrite E. eexists. split; [reflexivity|].
    intros i Hi. cbv beta. rewrite Ht by auto. reflexivity.
  Qed.
  (** forward of a band-limited function: all frequencies congruent to the retained one *)
  Definition alias (Np H : nat) (G : Z -> K) (k : Z) : K :=
    bandsum H (fun f => if ((f - k) mod Z.of_nat Np =? 0)%Z then G f else 0).
  Lemma alias_mod Np H G k : (0 < Np)%nat -> alias Np H G (Z.of_nat (Z.to_nat (k mod Z.of_nat Np))) = alias Np H G k.
  Proof.
    intros Hn. unfold alias. apply bandsum_ext. intros f Hf.
    rewrite Z2Nat.id by (apply Z.mod_pos_bound; lia). rewrite Zminus_mod_idemp_r. reflexivity.
  Qed.
  Lemma forward_band N Np w u H G : (2 <= N)%nat -> (N < Np)%nat -> prim_root Np w -> (fnat Np : K) <> 0 ->
    (forall j, u j = bandsum H (fun f => G f * zpow w (f * Z.of_nat j))) ->
    exists t, forward_c2c K N Np w u = Some t /\
    forall i, (i < N)%nat -> t i = if (N mod 2 =? 0)%nat && (i =? N / 2)%nat
      then alias Np H G (Z.of_nat (N / 2)) + alias Np H G (- Z.of_nat (N / 2))
      else alias Np H G (fftfreq N i).
  Proof.
    intros HN HNp Hp Hf Hu. destruct (forward_pad N Np w u HN HNp) as [t [E Ht]]. exists t. split; [exact E|].
    assert (F : forall m, fftn K Np w u m * finv (fnat Np) = alias Np H G (Z.of_nat m)).
    { intros m. rewrite (fftn_ext Np w u (fun j => bandsum H (fun f => G f * zpow w (f * Z.of_nat j)))) by (intros; apply Hu).
      rewrite fftn_band by (auto; lia). unfold alias. field. auto. }
    intros i Hi. rewrite Ht by auto. Zdiv2 N.
    destruct (Nat.eqb_spec (N mod 2) 0), (Nat.eqb_spec i (N / 2)); cbn [andb];
      rewrite ?F; try (apply alias_mod; lia).
    transitivity (fftn K Np w u (N / 2) * finv (fnat Np) + fftn K Np w u (Np - N / 2) * finv (fnat Np)); [ring|].
    rewrite !F. f_equal. rewrite <- (alias_mod Np H G (- Z.of_nat (N / 2))) by lia.
    f_equal. rewrite mod_neg by lia. lia.
  Qed.
  Lemma alias_self Np H G k : (0 < Np)%nat -> (Z.abs k <= Z.of_nat H)%Z -> (Z.of_nat H + Z.abs k < Z.of_nat Np)%Z ->
    alias Np H G k = G k.
  Proof.
    intros Hn Hk HH. unfold alias.
    rewrite (bandsum_ext K H _ (fun f => if (f =? k)%Z then G f else 0)).
    - rewrite bandsum_pick. destruct (Z.leb_spec (Z.abs k) (Z.of_nat H)); [reflexivity | lia].
    - intros f Hf. destruct (Z.eqb_spec f k) as [->|Hne].
      + rewrite Z.sub_diag, Z.mod_0_l by lia. reflexivity.
      + destruct (Z.eqb_spec ((f - k) mod Z.of_nat Np) 0) as [E|]; [|reflexivity].
        apply Z.mod_divide in E; [|lia]. destruct E as [q E]. exfalso.
        assert (q = 0 \/ q <= -1 \/ q >= 1)%Z by lia. nia.
  Qed.

  (** ** C2C convolution *)
  Lemma convolve_closed N Np w u v : (2 <= N)%nat -> (N < Np)%nat -> prim_root Np w -> (fnat Np : K) <> 0 ->
    exists r, convolve_fast_c2c K N Np w u v = Some r /\
    forall i, (i < N)%nat -> r i = if (N mod 2 =? 0)%nat && (i =? N / 2)%nat
      then alias Np (2 * (N / 2)) (linconv N u v) (Z.of_nat (N / 2)) + alias Np (2 * (N / 2)) (linconv N u v) (- Z.of_nat (N / 2))
      else alias Np (2 * (N / 2)) (linconv N u v) (fftfreq N i).
  Proof.
    intros HN HNp Hp Hf. pose proof (root_neq_0 K Np w ltac:(lia) (proj1 Hp)) as Hw.
    destruct (backward_pad N Np w u HN HNp (proj1 Hp)) as [u2 [E2 H2]].
    destruct (backward_pad N Np w v HN HNp (proj1 Hp)) as [u3 [E3 H3]].
    unfold convolve_fast_c2c. rewrite E2, E3. unfold bind.
    apply forward_band; auto. intros j. rewrite H2, H3.
    rewrite bandsum_prod; auto. intros f Hff. apply coef_out. auto.
  Qed.

  (** ** convolution sums by loops *)
  Lemma loop_scatter cnt (P : nat -> option nat) (g : nat -> K) uv0 p :
    for_up cnt 0 (fun b uv => match P b with Some q => upd uv q (uv q + g b) | None => uv end) uv0 p =
    uv0 p + fsum cnt (fun b => match P b with Some q => if (q =? p)%nat then g b else 0 | None => 0 end).
  Proof.
    induction cnt as [|c IH]; [simpl; change (fsum 0 _) with (0 : K); ring|].
    rewrite for_up_snoc, fsum_S. cbn [Nat.add]. destruct (P c) as [q|].
    - destruct (Nat.eqb_spec q p) as [->|Hne].
      + rewrite upd_same, IH. ring.
      + rewrite upd_other by auto. rewrite IH. ring.
    - rewrite IH. ring.
  Qed.
  Lemma loop_scatter2 cnt cnt2 (P : nat -> nat -> option nat) (g : nat -> nat -> K) uv0 p :
    for_up cnt 0 (fun a uv => for_up cnt2 0 (fun b uv => match P a b with Some q => upd uv q (uv q + g a b) | None => uv end) uv) uv0 p =
    uv0 p + fsum cnt (fun a => fsum cnt2 (fun b => match P a b with Some q => if (q =? p)%nat then g a b else 0 | None => 0 end)).
  Proof.
    induction cnt as [|c IH]; [simpl; change (fsum 0 _) with (0 : K); ring|].
    rewrite for_up_snoc, fsum_S. cbn [Nat.add]. rewrite (loop_scatter cnt2 (P c) (g c)). rewrite IH. ring.
  Qed.

  Lemma coef_halved N u m : (0 < N)%nat -> (Z.abs m <= Z.of_nat (N / 2))%Z -> halved K N u m = coef N u m.
  Proof.
    intros HN Hm. unfold halved, FourierSpec.coef. Zdiv2 N.
    destruct (Z.leb_spec (Z.abs m) (Z.of_nat (N / 2))); [|lia].
    replace (wrap N m) with (Z.to_nat (m mod Z.of_nat N)).
    - destruct (N mod 2 =? 0)%nat; cbn [andb]; [destruct (Z.abs m =? Z.of_nat (N / 2))%Z|]; ring.
    - unfold wrap. destruct (Z.ltb_spec m 0).
      + rewrite mod_neg by lia. reflexivity.
      + rewrite Z.mod_small by lia. reflexivity.
  Qed.

  Definition oddlen N := (2 * (N / 2) + 1)%nat.
  Lemma oddlen_eq N : (if (N mod 2 =? 0)%nat then (N + 1)%nat else N) = oddlen N.
  Proof. unfold oddlen. Zdiv2 N. destruct (Nat.eqb_spec (N mod 2) 0); lia. Qed.

  (** double sums over the band, gathered by the sum of the frequencies *)
  Lemma gather h (A B : Z -> K) (T : Z -> bool) :
    (forall f, (Z.of_nat h < Z.abs f)%Z -> B f = 0) ->
    bandsum h (fun a => bandsum h (fun b => if T (a + b)%Z then A a * B b else 0)) =
    bandsum (2 * h) (fun f => if T f then bandsum h (fun a => A a * B (f - a)%Z) else 0).
  Proof.
    intros HB.
    transitivity (bandsum h (fun a => bandsum (2 * h) (fun f => if T f then A a * B (f - a)%Z else 0))).
    - apply bandsum_ext. intros a Ha.
      rewrite (bandsum_shift h a) ; auto.
      + apply bandsum_ext. intros f Hf. replace (a + (f - a))%Z with f by lia. reflexivity.
      + intros f Hf. rewrite HB by auto. destruct (T (a + f)%Z); ring.
    - unfold FourierSpec.bandsum. rewrite fsum_swap. apply fsum_ext. intros t Ht.
      destruct (T _); [reflexivity|]. apply fsum_zero. reflexivity.
  Qed.
  Lemma sum_freq_odd h (F : Z -> K) : fsum (2 * h + 1) (fun i => F (fftfreq (2 * h + 1) i)) = bandsum h F.
  Proof.
    rewrite sum_freq by lia. unfold FourierSpec.bandsum. apply fsum_ext. intros t Ht. f_equal.
    replace ((2 * h + 1) / 2)%nat with h; [lia|]. Zdiv2 (2 * h + 1)%nat. lia.
  Qed.
  Lemma fftfreq_odd_bound h i : (i < 2 * h + 1)%nat -> (Z.abs (fftfreq (2 * h + 1) i) <= Z.of_nat h)%Z.
  Proof. intros Hi. pose proof (fftfreq_bound (2 * h + 1) i ltac:(lia) Hi). lia. Qed.

  Lemma convolve_1D_closed N u v p : (0 < N)%nat -> (p < 2 * N)%nat ->
    convolve_1D K N u v p =
    bandsum (2 * (N / 2)) (fun f => if ((f - Z.of_nat p) mod Z.of_nat (2 * N) =? 0)%Z then linconv N u v f else 0).
  Proof.
    intros HN Hp. unfold convolve_1D. cbv zeta. rewrite oddlen_eq. unfold oddlen. set (h := (N / 2)%nat).
    rewrite (loop_scatter2 (2 * h + 1) (2 * h + 1) (fun a b => Some (wrap (2 * N) (fftfreq (2 * h + 1) a + fftfreq (2 * h + 1) b)))
      (fun a b => halved K N u (fftfreq (2 * h + 1) a) * halved K N v (fftfreq (2 * h + 1) b))).
    transitivity (bandsum h (fun a => bandsum h (fun b =>
      if ((a + b - Z.of_nat p) mod Z.of_nat (2 * N) =? 0)%Z then coef N u a * coef N v b else 0))).
    - rewrite <- (sum_freq_odd h). match goal with |- 0 + ?a = _ => transitivity a; [ring|] end.
      apply fsum_ext. intros a Ha. rewrite <- (sum_freq_odd h). apply fsum_ext. intros b Hb.
      pose proof (fftfreq_odd_bound h a Ha). pose proof (fftfreq_odd_bound h b Hb).
      set (fa := fftfreq (2 * h + 1) a) in *. set (fb := fftfreq (2 * h + 1) b) in *.
      rewrite !coef_halved by (auto; fold h; lia).
      assert (Hh : (2 * h <= N)%nat) by (unfold h; Zdiv2 N; lia).
      replace ((fa + fb - Z.of_nat p) mod Z.of_nat (2 * N) =? 0)%Z with (wrap (2 * N) (fa + fb) =? p)%nat; [reflexivity|].
      unfold wrap. destruct (Z.ltb_spec (fa + fb) 0).
      + replace (fa + fb - Z.of_nat p)%Z with ((Z.of_nat (Z.to_nat (fa + fb + Z.of_nat (2 * N))) - Z.of_nat p) + (-1) * Z.of_nat (2 * N))%Z by lia.
        rewrite Z.mod_add by lia. symmetry. apply mod_diff_0; lia.
      + replace (fa + fb)%Z with (Z.of_nat (Z.to_nat (fa + fb))) at 2 by lia. symmetry. apply mod_diff_0; lia.
    - rewrite (gather h (coef N u) (coef N v) (fun f => ((f - Z.of_nat p) mod Z.of_nat (2 * N) =? 0)%Z)); [reflexivity|].
      intros f Hf. apply coef_out. exact Hf.
  Qed.
End P.
