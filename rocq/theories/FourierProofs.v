(** FourierProofs.v -- roots of unity, discrete Fourier transforms, padding. *)
From Coq Require Import Arith ZArith List Lia Bool Field Znumtheory.
From Verif Require Import Base Fld SparseModel FourierModel FourierSpec.
Local Open Scope nat_scope.

Section P.
  Variable K : Fld.
  Add Field KF : (flaws K).
  Notation vec := (nat -> K).
  Local Open Scope fld_scope.
  Notation zpow := (zpow K).
  Notation prim_root := (prim_root K).
  Notation bandsum := (bandsum K).

  (** ** powers *)
  Lemma fpow_add (x : K) a b : fpow x (a + b) = fpow x a * fpow x b.
  Proof. induction a as [|a IH]; simpl; [ring | rewrite IH; ring]. Qed.
  Lemma fpow_1 n : fpow (1 : K) n = 1.
  Proof. induction n as [|n IH]; simpl; [reflexivity | rewrite IH; ring]. Qed.
  Lemma fpow_mul (x : K) a b : fpow x (a * b) = fpow (fpow x a) b.
  Proof.
    induction b as [|b IH]; [rewrite Nat.mul_0_r; reflexivity|].
    rewrite Nat.mul_succ_r, fpow_add, IH. simpl. ring.
  Qed.
  Lemma fpow_neq_0 (x : K) n : x <> 0 -> fpow x n <> 0.
  Proof.
    intros Hx. induction n as [|n IH]; simpl; [apply f1_neq_0 | apply fmul_neq_0; auto].
  Qed.
  Lemma finv_neq_0 (x : K) : x <> 0 -> finv x <> 0.
  Proof. intros Hx E. apply (f1_neq_0 K). transitivity (x * finv x); [field; auto | rewrite E; ring]. Qed.
  Lemma fpow_mul_base (x y : K) n : fpow (x * y) n = fpow x n * fpow y n.
  Proof. induction n as [|n IH]; simpl; [ring | rewrite IH; ring]. Qed.

  Lemma zpow_nat x n : zpow x (Z.of_nat n) = fpow x n.
  Proof. destruct n; [reflexivity|]. unfold FourierSpec.zpow. simpl Z.of_nat. cbv beta iota. rewrite SuccNat2Pos.id_succ. reflexivity. Qed.
  Lemma zpow_opp_nat x n : zpow x (- Z.of_nat n) = fpow (finv x) n.
  Proof. destruct n; [reflexivity|]. unfold FourierSpec.zpow. simpl. rewrite SuccNat2Pos.id_succ. reflexivity. Qed.
  Lemma Z_cases (k : Z) : exists n, k = Z.of_nat n \/ k = (- Z.of_nat n)%Z.
  Proof. exists (Z.to_nat (Z.abs k)). lia. Qed.

  Lemma zpow_succ x k : x <> 0 -> zpow x (k + 1) = zpow x k * x.
  Proof.
    intros Hx. destruct (Z_cases k) as [n [-> | ->]].
    - replace (Z.of_nat n + 1)%Z with (Z.of_nat (S n)) by lia. rewrite !zpow_nat. simpl. ring.
    - destruct n as [|n].
      + simpl. ring.
      + replace (- Z.of_nat (S n) + 1)%Z with (- Z.of_nat n)%Z by lia. rewrite !zpow_opp_nat. simpl. field. auto.
  Qed.
  Lemma zpow_pred x k : x <> 0 -> zpow x (k - 1) = zpow x k * finv x.
  Proof. intros Hx. pose proof (zpow_succ x (k - 1) Hx) as E. replace (k - 1 + 1)%Z with k in E by lia. rewrite E. field. auto. Qed.
  Lemma zpow_add x a b : x <> 0 -> zpow x (a + b) = zpow x a * zpow x b.
  Proof.
    intros Hx. revert b. apply Z.peano_ind.
    - rewrite Z.add_0_r. simpl. ring.
    - intros b IH. unfold Z.succ. rewrite Z.add_assoc, !zpow_succ, IH by auto. ring.
    - intros b IH. unfold Z.pred. replace (a + (b + -1))%Z with (a + b - 1)%Z by lia.
      replace (b + -1)%Z with (b - 1)%Z by lia. rewrite !zpow_pred, IH by auto. ring.
  Qed.
  Lemma zpow_neq_0 x k : x <> 0 -> zpow x k <> 0.
  Proof.
    intros Hx. destruct (Z_cases k) as [n [-> | ->]]; rewrite ?zpow_nat, ?zpow_opp_nat; apply fpow_neq_0; auto.
    apply finv_neq_0; auto.
  Qed.
  Lemma zpow_opp x a : x <> 0 -> zpow x (- a) = finv (zpow x a).
  Proof.
    intros Hx. assert (E : zpow x (- a) * zpow x a = 1).
    { rewrite <- zpow_add by auto. replace (- a + a)%Z with 0%Z by lia. reflexivity. }
    pose proof (zpow_neq_0 x a Hx). transitivity (zpow x (- a) * zpow x a * finv (zpow x a)); [field; auto | rewrite E; ring].
  Qed.
  Lemma zpow_mul x a b : x <> 0 -> zpow x (a * b) = zpow (zpow x a) b.
  Proof.
    intros Hx. pose proof (zpow_neq_0 x a Hx) as Hy. revert b. apply Z.peano_ind.
    - rewrite Z.mul_0_r. reflexivity.
    - intros b IH. unfold Z.succ. rewrite Z.mul_add_distr_l, Z.mul_1_r, zpow_succ, zpow_add, IH by auto. reflexivity.
    - intros b IH. unfold Z.pred. replace (a * (b + -1))%Z with (a * b + - a)%Z by lia.
      replace (b + -1)%Z with (b - 1)%Z by lia. rewrite zpow_add, zpow_pred, IH, zpow_opp by auto. reflexivity.
  Qed.
  Lemma zpow_1_base k : zpow 1 k = 1.
  Proof.
    destruct (Z_cases k) as [n [-> | ->]]; rewrite ?zpow_nat, ?zpow_opp_nat; [apply fpow_1|].
    replace (finv (1 : K)) with (1 : K) by (field; apply f1_neq_0). apply fpow_1.
  Qed.

  (** ** roots of unity *)
  Lemma root_neq_0 n w : (0 < n)%nat -> fpow w n = (1 : K) -> w <> 0.
  Proof.
    intros Hn H E. rewrite E in H. destruct n as [|n]; [lia|]. simpl in H. apply (f1_neq_0 K).
    rewrite <- H. ring.
  Qed.
  Lemma zpow_period n w a b : (0 < n)%nat -> fpow w n = (1 : K) -> (a mod Z.of_nat n = b mod Z.of_nat n)%Z -> zpow w a = zpow w b.
  Proof.
    intros Hn H E. pose proof (root_neq_0 _ _ Hn H) as Hw.
    assert (G : forall c, zpow w c = zpow w (c mod Z.of_nat n)).
    { intros c. rewrite (Z.div_mod c (Z.of_nat n)) at 1 by lia.
      rewrite zpow_add, zpow_mul, zpow_nat, H, zpow_1_base by auto. ring. }
    rewrite (G a), (G b), E. reflexivity.
  Qed.
  Lemma prim_zpow_1 n w a : (0 < n)%nat -> prim_root n w -> zpow w a = 1 -> (a mod Z.of_nat n = 0)%Z.
  Proof.
    intros Hn [H1 H2] E. destruct (Z.eq_dec (a mod Z.of_nat n) 0) as [|Hne]; auto. exfalso.
    pose proof (Z.mod_pos_bound a (Z.of_nat n) ltac:(lia)) as B.
    apply (H2 (Z.to_nat (a mod Z.of_nat n))); [lia|].
    rewrite <- zpow_nat, Z2Nat.id by lia. rewrite <- E. apply (zpow_period n); auto. apply Z.mod_mod. lia.
  Qed.
  Lemma geom n (x : K) : (x - 1) * fsum n (fun j => fpow x j) = fpow x n - 1.
  Proof.
    induction n as [|n IH]; [simpl; change (fsum 0 (fun j => fpow x j)) with (0 : K); ring|].
    rewrite fsum_S. transitivity ((x - 1) * fsum n (fun j => fpow x j) + (x - 1) * fpow x n); [ring|].
    rewrite IH. simpl. ring.
  Qed.
  Lemma fsum_const n (c : K) : fsum n (fun _ => c) = fnat n * c.
  Proof. induction n as [|n IH]; [simpl; change (fsum 0 (fun _ => c)) with (0 : K); ring|]. rewrite fsum_S, IH. simpl. ring. Qed.
  Lemma orth n w a : (0 < n)%nat -> prim_root n w ->
    fsum n (fun j => zpow w (a * Z.of_nat j)) = if (a mod Z.of_nat n =? 0)%Z then fnat n else 0.
  Proof.
    intros Hn Hp. pose proof (root_neq_0 _ _ Hn (proj1 Hp)) as Hw.
    rewrite (fsum_ext K n _ (fun j => fpow (zpow w a) j)) by (intros; rewrite zpow_mul, zpow_nat by auto; reflexivity).
    destruct (Z.eqb_spec (a mod Z.of_nat n) 0) as [E|E].
    - assert (E1 : zpow w a = 1) by (apply (zpow_period n w a 0 Hn (proj1 Hp)); rewrite Z.mod_0_l by lia; exact E).
      rewrite E1. rewrite (fsum_ext K n _ (fun _ => 1)) by (intros; apply fpow_1). rewrite fsum_const. ring.
    - apply (fmul_integral K _ (zpow w a - 1)).
      + transitivity ((zpow w a - 1) * fsum n (fun j => fpow (zpow w a) j)); [ring|]. rewrite geom.
        rewrite <- zpow_nat, <- zpow_mul by auto.
        rewrite (zpow_period n w (a * Z.of_nat n) 0 Hn (proj1 Hp)); [simpl; ring |].
        rewrite Z.mod_mul, Z.mod_0_l by lia. reflexivity.
      + intros E2. apply E. apply (prim_zpow_1 n w); auto. transitivity (zpow w a - 1 + 1); [ring | rewrite E2; ring].
  Qed.

  (** ** transforms *)
  Lemma fftn_z n w u k : w <> 0 -> fftn K n w u k = fsum n (fun j => u j * zpow w (- (Z.of_nat j * Z.of_nat k))).
  Proof. intros Hw. apply fsum_ext. intros j Hj. f_equal. rewrite <- Nat2Z.inj_mul, zpow_opp_nat. reflexivity. Qed.
  Lemma ifftn_z n w c j : ifftn K n w c j = fsum n (fun k => c k * zpow w (Z.of_nat j * Z.of_nat k)).
  Proof. apply fsum_ext. intros k Hk. f_equal. rewrite <- Nat2Z.inj_mul, zpow_nat. reflexivity. Qed.

  Lemma mod_diff_0 n a b : (a < n)%nat -> (b < n)%nat -> ((Z.of_nat a - Z.of_nat b) mod Z.of_nat n =? 0)%Z = (a =? b)%nat.
  Proof.
    intros Ha Hb. destruct (Nat.eqb_spec a b) as [->|Hne].
    - rewrite Z.sub_diag, Z.mod_0_l by lia. reflexivity.
    - apply Z.eqb_neq. intros E. apply Z.mod_divide in E; [|lia]. destruct E as [q E].
      assert (q = 0 \/ q <= -1 \/ q >= 1)%Z by lia. nia.
  Qed.

  Lemma fsum_pick n c (g : vec) : (c < n)%nat -> fsum n (fun j => if (j =? c)%nat then g j else 0) = g c.
  Proof. intros H. rewrite fsum_delta. apply Nat.ltb_lt in H. rewrite H. reflexivity. Qed.

  (** Fourier series: coefficient k of a trigonometric sum *)
  Lemma ifftn_fftn n w u l : (0 < n)%nat -> prim_root n w -> (l < n)%nat ->
    ifftn K n w (fftn K n w u) l = fnat n * u l.
  Proof.
    intros Hn Hp Hl. pose proof (root_neq_0 _ _ Hn (proj1 Hp)) as Hw. rewrite ifftn_z.
    rewrite (fsum_ext K n _ (fun k => fsum n (fun j => u j * zpow w ((Z.of_nat l - Z.of_nat j) * Z.of_nat k)))).
    2:{ intros k Hk. rewrite fftn_z, <- fsum_scal_r by auto. apply fsum_ext. intros j Hj.
        replace ((Z.of_nat l - Z.of_nat j) * Z.of_nat k)%Z with (- (Z.of_nat j * Z.of_nat k) + Z.of_nat l * Z.of_nat k)%Z by lia.
        rewrite zpow_add by auto. ring. }
    rewrite fsum_swap. rewrite (fsum_ext K n _ (fun j => if (j =? l)%nat then fnat n * u j else 0)).
    - apply (fsum_pick n l (fun j => fnat n * u j)). exact Hl.
    - intros j Hj. rewrite fsum_scal, orth by auto. rewrite mod_diff_0, Nat.eqb_sym by auto.
      destruct (j =? l)%nat; ring.
  Qed.
  Lemma fftn_ifftn n w c k : (0 < n)%nat -> prim_root n w -> (k < n)%nat ->
    fftn K n w (ifftn K n w c) k = fnat n * c k.
  Proof.
    intros Hn Hp Hk. pose proof (root_neq_0 _ _ Hn (proj1 Hp)) as Hw. rewrite fftn_z by auto.
    rewrite (fsum_ext K n _ (fun j => fsum n (fun l => c l * zpow w ((Z.of_nat l - Z.of_nat k) * Z.of_nat j)))).
    2:{ intros j Hj. rewrite ifftn_z, <- fsum_scal_r. apply fsum_ext. intros l Hl.
        replace ((Z.of_nat l - Z.of_nat k) * Z.of_nat j)%Z with (Z.of_nat j * Z.of_nat l + - (Z.of_nat j * Z.of_nat k))%Z by lia.
        rewrite zpow_add by auto. ring. }
    rewrite fsum_swap. rewrite (fsum_ext K n _ (fun l => if (l =? k)%nat then fnat n * c l else 0)).
    - apply (fsum_pick n k (fun l => fnat n * c l)). exact Hk.
    - intros l Hl. rewrite fsum_scal, orth by auto. rewrite mod_diff_0 by auto. destruct (l =? k)%nat; ring.
  Qed.

  (** ** frequencies *)
  Ltac Zdiv2 n := let q := fresh "q" in let r := fresh "r" in
    pose proof (Nat.div_mod n 2 ltac:(lia)); pose proof (Nat.mod_upper_bound n 2 ltac:(lia)).
  Lemma n1_eq n : (0 < n)%nat -> ((n - 1) / 2 + 1 + n / 2 = n)%nat.
  Proof. intros H. Zdiv2 n. Zdiv2 (n - 1)%nat. lia. Qed.
  Lemma fftfreq_eq n i : (0 < n)%nat -> (i < n)%nat ->
    fftfreq n i = if (i <? (n - 1) / 2 + 1)%nat then Z.of_nat i else (Z.of_nat i - Z.of_nat n)%Z.
  Proof.
    intros Hn Hi. unfold fftfreq. pose proof (n1_eq n Hn).
    destruct (Nat.ltb_spec i ((n - 1) / 2 + 1)); auto. lia.
  Qed.
  Lemma fftfreq_bound n i : (0 < n)%nat -> (i < n)%nat -> (- Z.of_nat n <= 2 * fftfreq n i < Z.of_nat n)%Z.
  Proof.
    intros Hn Hi. rewrite fftfreq_eq by auto. Zdiv2 (n - 1)%nat.
    destruct (Nat.ltb_spec i ((n - 1) / 2 + 1)); lia.
  Qed.
  Lemma fftfreq_mod n i : (0 < n)%nat -> (i < n)%nat -> (fftfreq n i mod Z.of_nat n = Z.of_nat i)%Z.
  Proof.
    intros Hn Hi. rewrite fftfreq_eq by auto.
    destruct (Nat.ltb_spec i ((n - 1) / 2 + 1)).
    - apply Z.mod_small. lia.
    - replace (Z.of_nat i - Z.of_nat n)%Z with (Z.of_nat i + (-1) * Z.of_nat n)%Z by lia.
      rewrite Z.mod_add by lia. apply Z.mod_small. lia.
  Qed.
  Lemma sum_freq n (F : Z -> K) : (0 < n)%nat ->
    fsum n (fun i => F (fftfreq n i)) = fsum n (fun t => F (Z.of_nat t - Z.of_nat (n / 2))%Z).
  Proof.
    intros Hn. pose proof (n1_eq n Hn) as E. set (a := ((n - 1) / 2 + 1)%nat) in *. set (b := (n / 2)%nat) in *.
    transitivity (fsum a (fun t => F (Z.of_nat t)) + fsum b (fun t => F (Z.of_nat t - Z.of_nat b)%Z)).
    - rewrite <- E at 1. rewrite fsum_split. f_equal; apply fsum_ext; intros t Ht; unfold fftfreq; fold a b.
      + destruct (Nat.ltb_spec t a); [reflexivity | lia].
      + destruct (Nat.ltb_spec (a + t)%nat a); [lia|]. f_equal. lia.
    - replace (fsum n (fun t => F (Z.of_nat t - Z.of_nat b)%Z)) with (fsum (b + a) (fun t => F (Z.of_nat t - Z.of_nat b)%Z)) by (f_equal; lia). rewrite fsum_split.
      transitivity (fsum b (fun t => F (Z.of_nat t - Z.of_nat b)%Z) + fsum a (fun t => F (Z.of_nat t))); [ring|].
      f_equal. apply fsum_ext. intros t Ht. f_equal. lia.
  Qed.
  (** functions supported in a band *)
  Lemma sum_freq_band n h (F : Z -> K) : (2 * h < n)%nat ->
    (forall f, (Z.of_nat h < Z.abs f)%Z -> F f = 0) ->
    fsum n (fun i => F (fftfreq n i)) = bandsum h F.
  Proof.
    intros Hn HF. rewrite sum_freq by lia.
    assert (H1 : (h <= n / 2)%nat) by (Zdiv2 n; lia). assert (H2 : (n / 2 + h + 1 <= n)%nat) by (Zdiv2 n; lia).
    replace n with ((n / 2 - h) + ((2 * h + 1) + (n - (n / 2 + h + 1))))%nat at 1 by lia.
    rewrite fsum_split, (fsum_split K (2 * h + 1)). rewrite (fsum_zero K (n / 2 - h)).
    2:{ intros i Hi. apply HF. lia. }
    rewrite (fsum_zero K (n - (n / 2 + h + 1))).
    2:{ intros i Hi. apply HF. lia. }
    unfold FourierSpec.bandsum. match goal with |- (0 + (?a + 0)) = _ => transitivity a; [ring|] end.
    apply fsum_ext. intros i Hi. f_equal. lia.
  Qed.
  Lemma bandsum_ext h (F G : Z -> K) : (forall f, (Z.abs f <= Z.of_nat h)%Z -> F f = G f) -> bandsum h F = bandsum h G.
  Proof. intros H. apply fsum_ext. intros t Ht. apply H. lia. Qed.
  Lemma bandsum_scal h c (F : Z -> K) : bandsum h (fun f => c * F f) = c * bandsum h F.
  Proof. apply fsum_scal. Qed.
  Lemma bandsum_pick h k (G : Z -> K) :
    bandsum h (fun f => if (f =? k)%Z then G f else 0) = if (Z.abs k <=? Z.of_nat h)%Z then G k else 0.
  Proof.
    unfold FourierSpec.bandsum. destruct (Z.leb_spec (Z.abs k) (Z.of_nat h)) as [L|L].
    - rewrite (fsum_single K _ (Z.to_nat (k + Z.of_nat h))); [| lia |].
      + replace (Z.of_nat (Z.to_nat (k + Z.of_nat h)) - Z.of_nat h)%Z with k by lia. rewrite Z.eqb_refl. reflexivity.
      + intros j Hj Hne. destruct (Z.eqb_spec (Z.of_nat j - Z.of_nat h) k); [lia | reflexivity].
    - apply fsum_zero. intros j Hj. destruct (Z.eqb_spec (Z.of_nat j - Z.of_nat h) k); [lia | reflexivity].
  Qed.

  (** ** padding and truncation in closed form *)
  Lemma coef_out N c f : (Z.of_nat (N / 2) < Z.abs f)%Z -> coef K N c f = 0.
  Proof. intros H. unfold coef. destruct (Z.leb_spec (Z.abs f) (Z.of_nat (N / 2))); [lia | reflexivity]. Qed.

  Lemma pyidx_neg L h : (0 < h <= L)%nat -> pyidx L (- Z.of_nat h) = (L - h)%nat.
  Proof. intros H. unfold pyidx. destruct (Z.ltb_spec (- Z.of_nat h) 0); lia. Qed.
  Lemma pyidx_pos L h : (h <= L)%nat -> pyidx L (Z.of_nat h) = h.
  Proof. intros H. unfold pyidx. destruct (Z.ltb_spec (Z.of_nat h) 0); lia. Qed.
  Lemma pyidx_0 L : pyidx L 0 = 0%nat.
  Proof. unfold pyidx. simpl. lia. Qed.

  Ltac nb := repeat match goal with
    | |- context [(?a <=? ?b)%nat] => destruct (Nat.leb_spec a b); try lia
    | |- context [(?a <? ?b)%nat] => destruct (Nat.ltb_spec a b); try lia
    | |- context [(?a =? ?b)%nat] => destruct (Nat.eqb_spec a b); try lia
    | |- context [(?a <=? ?b)%Z] => destruct (Z.leb_spec a b); try lia
    | |- context [(?a =? ?b)%Z] => destruct (Z.eqb_spec a b); try lia
    end.

  Lemma mod_neg n f : (0 < n)%nat -> (- Z.of_nat n <= f < 0)%Z -> (f mod Z.of_nat n = f + Z.of_nat n)%Z.
  Proof.
    intros Hn H. symmetry. apply (Z.mod_unique_pos f (Z.of_nat n) (-1)); lia.
  Qed.

  Lemma pad_closed N Np c : (2 <= N)%nat -> (N < Np)%nat -> exists p, pad_c2c K N Np c = Some p /\
    forall m, (m < Np)%nat -> p m = coef K N c (fftfreq Np m).
  Proof.
    intros HN HNp. unfold pad_c2c, slice_op. Zdiv2 N. Zdiv2 (Np - 1)%nat.
    set (h := (N / 2)%nat) in *. assert (Hh : (1 <= h)%nat) by lia.
    replace (Z.of_nat h + 1)%Z with (Z.of_nat (h + 1)) by lia.
    rewrite !pyidx_0, !pyidx_pos, !pyidx_neg, !Nat.sub_0_r, !Nat.eqb_refl by lia. unfold bind.
    replace (N - (N - h))%nat with h by lia. replace (Np - (Np - h))%nat with h by lia. rewrite Nat.eqb_refl.
    eexists. split; [reflexivity|]. intros m Hm. rewrite fftfreq_eq by lia.
    unfold coef. fold h.
    destruct (Nat.eqb_spec (N mod 2) 0) as [Ev|Od].
    - destruct (Nat.ltb_spec m ((Np - 1) / 2 + 1)) as [L|L].
      + destruct (Z.leb_spec (Z.abs (Z.of_nat m)) (Z.of_nat h)) as [L2|L2].
        * rewrite Z.mod_small, Nat2Z.id by lia.
          destruct (Z.eqb_spec (Z.abs (Z.of_nat m)) (Z.of_nat h)) as [E|E].
          -- assert (m = h) by lia. subst m. rewrite (upd_other _ (Np - h)%nat) by lia. rewrite upd_same.
             nb; cbn [andb]. replace (0 + (h - 0))%nat with h by lia. ring.
          -- rewrite !upd_other by lia. nb; cbn [andb]. replace (0 + (m - 0))%nat with m by lia. ring.
        * rewrite !upd_other by lia. nb; cbn [andb]; reflexivity.
      + destruct (Z.leb_spec (Z.abs (Z.of_nat m - Z.of_nat Np)) (Z.of_nat h)) as [L2|L2].
        * rewrite mod_neg by lia.
          replace (Z.to_nat (Z.of_nat m - Z.of_nat Np + Z.of_nat N)) with (N - h + (m - (Np - h)))%nat by lia.
          destruct (Z.eqb_spec (Z.abs (Z.of_nat m - Z.of_nat Np)) (Z.of_nat h)) as [E|E].
          -- assert (E' : m = (Np - h)%nat) by lia. rewrite <- E'. rewrite upd_same. rewrite upd_other by lia.
             nb; cbn [andb]. ring.
          -- rewrite !upd_other by lia. nb; cbn [andb]. ring.
        * rewrite !upd_other by lia. nb; cbn [andb]; reflexivity.
    - destruct (Nat.ltb_spec m ((Np - 1) / 2 + 1)) as [L|L].
      + destruct (Z.leb_spec (Z.abs (Z.of_nat m)) (Z.of_nat h)) as [L2|L2].
        * rewrite Z.mod_small, Nat2Z.id by lia.
          nb; cbn [andb]. replace (0 + (m - 0))%nat with m by lia. ring.
        * nb; cbn [andb]; reflexivity.
      + destruct (Z.leb_spec (Z.abs (Z.of_nat m - Z.of_nat Np)) (Z.of_nat h)) as [L2|L2].
        * rewrite mod_neg by lia.
          replace (Z.to_nat (Z.of_nat m - Z.of_nat Np + Z.of_nat N)) with (N - h + (m - (Np - h)))%nat by lia.
          nb; cbn [andb]. ring.
        * nb; cbn [andb]; reflexivity.
  Qed.

  (** truncation keeps the coefficient of each frequency and adds the two Nyquist ones *)
  Lemma trunc_closed N Np p : (2 <= N)%nat -> (N < Np)%nat -> exists t, trunc_c2c K N Np p = Some t /\
    forall i, (i < N)%nat -> t i =
      if (N mod 2 =? 0)%nat && (i =? N / 2)%nat
      then p (N / 2)%nat + p (Np - N / 2)%nat
      else p (Z.to_nat (fftfreq N i mod Z.of_nat Np)).
  Proof.
    intros HN HNp. unfold trunc_c2c, slice_op. Zdiv2 N. Zdiv2 (N - 1)%nat.
    set (h := (N / 2)%nat) in *. assert (Hh : (1 <= h)%nat) by lia.
    replace (Z.of_nat h + 1)%Z with (Z.of_nat (h + 1)) by lia.
    rewrite !pyidx_0, !pyidx_pos, !pyidx_neg, !Nat.sub_0_r, !Nat.eqb_refl by lia. unfold bind.
    replace (N - (N - h))%nat with h by lia. replace (Np - (Np - h))%nat with h by lia. rewrite Nat.eqb_refl.
    eexists. split; [reflexivity|]. intros i Hi. rewrite fftfreq_eq by lia.
    destruct (Nat.eqb_spec (N mod 2) 0) as [Ev|Od], (Nat.eqb_spec i h) as [Ei|Ei]; cbn [andb].
    - subst i. nb; cbn [andb]. f_equal; f_equal; lia.
    - destruct (Nat.ltb_spec i ((N - 1) / 2 + 1)).
      + rewrite Z.mod_small, Nat2Z.id by lia. nb; cbn [andb]. f_equal. lia.
      + rewrite mod_neg by lia. nb; cbn [andb].
        replace (Z.to_nat (Z.of_nat i - Z.of_nat N + Z.of_nat Np)) with (Np - h + (i - (N - h)))%nat by lia. ring.
    - subst i. destruct (Nat.ltb_spec h ((N - 1) / 2 + 1)); [|lia].
      rewrite Z.mod_small, Nat2Z.id by lia. nb; cbn [andb]. f_equal. lia.
    - destruct (Nat.ltb_spec i ((N - 1) / 2 + 1)).
      + rewrite Z.mod_small, Nat2Z.id by lia. nb; cbn [andb]. f_equal. lia.
      + rewrite mod_neg by lia. nb; cbn [andb].
        replace (Z.to_nat (Z.of_nat i - Z.of_nat N + Z.of_nat Np)) with (Np - h + (i - (N - h)))%nat by lia. ring.
  Qed.
End P.
