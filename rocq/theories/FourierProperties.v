(** FourierProperties.v -- C16 .. C21: Fourier bases.  The statements quantify over any field
    with a primitive root of unity; Complex.v shows that exp(2 pi i / n) is one for every n,
    and each property ends with the instance in the complex numbers. *)
From Coq Require Import Arith ZArith List Lia Bool Field QArith Qcanon Reals.
From Verif Require Import Base Fld Witness SparseModel FourierModel FourierSpec FourierProofs FourierProofs2 FourierProofs3 FourierProofs4 Complex.
Import ListNotations.
Local Open Scope nat_scope.
Local Open Scope fld_scope.

(** * C16: wavenumbers *)
(** the C2C wavenumbers are exactly the integers of [-N/2, N/2), each once *)
Theorem C16_c2c_permutation : forall N, (0 < N)%nat ->
  (forall i, (i < N)%nat -> (- Z.of_nat N <= 2 * wavenumbers_c2c N false i < Z.of_nat N)%Z) /\
  (forall i j, (i < N)%nat -> (j < N)%nat -> wavenumbers_c2c N false i = wavenumbers_c2c N false j -> i = j) /\
  (forall f : Z, (- Z.of_nat N <= 2 * f < Z.of_nat N)%Z -> exists i, (i < N)%nat /\ wavenumbers_c2c N false i = f).
Proof.
  intros N HN. unfold wavenumbers_c2c. rewrite andb_false_r. cbn [andb]. split; [|split].
  - intros i Hi. apply fftfreq_bound; auto.
  - intros i j Hi Hj E. pose proof (fftfreq_mod N i HN Hi) as E1. pose proof (fftfreq_mod N j HN Hj) as E2. rewrite E in E1. lia.
  - intros f Hf. destruct (fftfreq_inv N f HN Hf) as [B E]. eauto.
Qed.
Print Assumptions C16_c2c_permutation.
(** wavenumber i is i modulo N, 0, 1, 2, ... come first, and the mode exp(i k x) at grid point
    x_j = 2 pi j / N is entry (i, j) of the discrete Fourier transform *)
Theorem C16_c2c_modes : forall (K : Fld) N w i j, (0 < N)%nat -> fpow w N = (1 : K) -> (i < N)%nat ->
  (wavenumbers_c2c N false i mod Z.of_nat N = Z.of_nat i)%Z /\
  ((2 * i < N)%nat -> wavenumbers_c2c N false i = Z.of_nat i) /\
  zpow K w (wavenumbers_c2c N false i * Z.of_nat j) = fpow w (j * i).
Proof.
  intros K N w i j HN H1 Hi. unfold wavenumbers_c2c. rewrite andb_false_r. cbn [andb].
  pose proof (fftfreq_mod N i HN Hi) as E. split; [exact E|]. split.
  - intros L. rewrite fftfreq_eq by auto. pose proof (Nat.div_mod (N - 1) 2 ltac:(lia)). pose proof (Nat.mod_upper_bound (N - 1) 2 ltac:(lia)).
    destruct (Nat.ltb_spec i ((N - 1) / 2 + 1)); lia.
  - rewrite <- zpow_nat. apply (zpow_period K N w _ _ HN H1). rewrite Z.mul_mod, E by lia.
    rewrite Z.mul_mod_idemp_r by lia. f_equal. lia.
Qed.
Print Assumptions C16_c2c_modes.
(** R2C: the N//2+1 wavenumbers are those of C2C up to the sign of the Nyquist one *)
Theorem C16_r2c : forall N i, (0 < N)%nat -> (i <= N / 2)%nat ->
  (0 <= 2 * wavenumbers_r2c N false i <= Z.of_nat N)%Z /\
  wavenumbers_r2c N false i = (if (2 * i =? N)%nat then - wavenumbers_c2c N false i else wavenumbers_c2c N false i)%Z.
Proof.
  intros N i HN Hi. unfold wavenumbers_r2c, wavenumbers_c2c, rfftfreq. rewrite !andb_false_r. cbn [andb].
  pose proof (Nat.div_mod N 2 ltac:(lia)). pose proof (Nat.mod_upper_bound N 2 ltac:(lia)).
  pose proof (Nat.div_mod (N - 1) 2 ltac:(lia)). pose proof (Nat.mod_upper_bound (N - 1) 2 ltac:(lia)).
  destruct (Nat.eqb_spec (2 * i) N).
  - split; [lia|]. rewrite fftfreq_eq by lia. destruct (Nat.ltb_spec i ((N - 1) / 2 + 1)); lia.
  - split; [lia|]. rewrite fftfreq_eq by lia. destruct (Nat.ltb_spec i ((N - 1) / 2 + 1)); lia.
Qed.
Print Assumptions C16_r2c.
(** eliminate_highest_freq changes exactly the Nyquist wavenumber, to zero *)
Theorem C16_eliminate : forall N i, (0 < N)%nat -> (i < N)%nat ->
  wavenumbers_c2c N true i = (if (Z.abs (2 * fftfreq N i) =? Z.of_nat N)%Z then 0 else wavenumbers_c2c N false i)%Z /\
  ((i <= N / 2)%nat -> wavenumbers_r2c N true i = (if (2 * i =? N)%nat then 0 else wavenumbers_r2c N false i)%Z).
Proof.
  intros N i HN Hi. unfold wavenumbers_r2c, wavenumbers_c2c, rfftfreq. rewrite !andb_false_r, !andb_true_r. cbn [andb].
  pose proof (Nat.div_mod N 2 ltac:(lia)). pose proof (Nat.mod_upper_bound N 2 ltac:(lia)).
  pose proof (Nat.div_mod (N - 1) 2 ltac:(lia)). pose proof (Nat.mod_upper_bound (N - 1) 2 ltac:(lia)).
  rewrite fftfreq_eq by auto. split.
  - destruct (Nat.eqb_spec (N mod 2) 0), (Nat.eqb_spec i (N / 2)), (Nat.ltb_spec i ((N - 1) / 2 + 1)); cbn [andb];
      match goal with |- context [Z.eqb ?a ?b] => destruct (Z.eqb_spec a b) end; lia.
  - intros Hi2. replace (N / 2 + 1 - 1)%nat with (N / 2)%nat by lia.
    destruct (Nat.eqb_spec (N mod 2) 0), (Nat.eqb_spec i (N / 2)); cbn [andb]; destruct (Nat.eqb_spec (2 * i) N); lia.
Qed.
Print Assumptions C16_eliminate.
Example C16_values : map (wavenumbers_c2c 7 false) (seq 0 7) = [0; 1; 2; 3; -3; -2; -1]%Z /\
  map (wavenumbers_c2c 8 false) (seq 0 8) = [0; 1; 2; 3; -4; -3; -2; -1]%Z /\
  map (wavenumbers_c2c 8 true) (seq 0 8) = [0; 1; 2; 3; 0; -3; -2; -1]%Z /\ map (wavenumbers_r2c 8 true) (seq 0 5) = [0; 1; 2; 3; 0]%Z.
Proof. repeat split. Qed.

(** * C17: forward and backward transforms are inverses *)
Theorem C17_c2c_backward_forward : forall (K : Fld) N w (u : nat -> K), (0 < N)%nat -> prim_root K N w -> (fnat N : K) <> 0 ->
  exists c v, forward_c2c K N N w u = Some c /\ backward_c2c K N N w false c = Some v /\ forall j, (j < N)%nat -> v j = u j.
Proof.
  intros K N w u HN Hp Hf. unfold forward_c2c, backward_c2c. rewrite Nat.eqb_refl.
  eexists; eexists; split; [reflexivity|]; split; [reflexivity|]. intros j Hj. unfold ifftn.
  rewrite (fsum_ext K N _ (fun k => finv (fnat N) * (fftn K N w u k * fpow w (j * k)))).
  - rewrite fsum_scal. change (fsum N (fun k => fftn K N w u k * fpow w (j * k))) with (ifftn K N w (fftn K N w u) j).
    rewrite ifftn_fftn by auto.
    transitivity (finv (fnat N) * fnat N * u j); [apply (Rmul_assoc (fringlaws K))|]. rewrite (Finv_l (flaws K)) by auto. apply (Rmul_1_l (fringlaws K)).
  - intros k Hk. rewrite (Rmul_assoc (fringlaws K)). f_equal. apply (Rmul_comm (fringlaws K)).
Qed.
Print Assumptions C17_c2c_backward_forward.
Theorem C17_c2c_forward_backward : forall (K : Fld) N w (c : nat -> K), (0 < N)%nat -> prim_root K N w -> (fnat N : K) <> 0 ->
  exists u d, backward_c2c K N N w false c = Some u /\ forward_c2c K N N w u = Some d /\ forall k, (k < N)%nat -> d k = c k.
Proof.
  intros K N w c HN Hp Hf. unfold forward_c2c, backward_c2c. rewrite Nat.eqb_refl.
  eexists; eexists; split; [reflexivity|]; split; [reflexivity|]. intros k Hk. cbv beta.
  rewrite fftn_ifftn by auto. rewrite (Rmul_comm (fringlaws K)), (Rmul_assoc (fringlaws K)), (Finv_l (flaws K)) by auto.
  apply (Rmul_1_l (fringlaws K)).
Qed.
Print Assumptions C17_c2c_forward_backward.
(** R2C: real values are recovered *)
Theorem C17_r2c_backward_forward : forall (K : Fld) conj N w (u : nat -> K),
  (2 <= N)%nat -> prim_root K N w -> (fnat N : K) <> 0 -> (1 + 1 : K) <> 0 -> conj_ok K conj -> conj w = finv w ->
  (forall j, (j < N)%nat -> conj (u j) = u j) ->
  exists c v, forward_r2c K conj N N w u = Some c /\ backward_r2c K conj N N w false c = Some v /\ forall j, (j < N)%nat -> v j = u j.
Proof.
  intros K conj N w u HN Hp Hf two Hc cw Hu. pose proof (root_neq_0 K N w ltac:(lia) (proj1 Hp)) as Hw.
  destruct (C17_c2c_backward_forward K N w u ltac:(lia) Hp Hf) as [c [v [E1 [E2 E3]]]].
  unfold forward_c2c in E1. rewrite Nat.eqb_refl in E1. injection E1 as <-.
  unfold backward_c2c in E2. rewrite Nat.eqb_refl in E2. injection E2 as <-.
  unfold forward_r2c, backward_r2c. rewrite Nat.eqb_refl. eexists; eexists; split; [reflexivity|]; split; [reflexivity|].
  intros j Hj. rewrite irfftn_herm. rewrite <- (E3 j Hj). apply ifftn_ext. intros k Hk.
  assert (Ec : forall x, conj (x * finv (fnat N)) = conj x * finv (fnat N)).
  { intros x. rewrite (conj_mul K conj Hc). f_equal. rewrite (conj_inv K conj Hc) by auto. rewrite (conj_nat K conj Hc). reflexivity. }
  change (rfftn K N w u) with (fftn K N w u).
  rewrite <- (fftn_herm K conj Hc two w Hw cw N u k) by (auto; try lia; apply Hp).
  unfold hermitian. destruct (k =? 0)%nat; [|destruct (2 * k <? N)%nat; [reflexivity|destruct (2 * k =? N)%nat; [|apply Ec]]];
    rewrite Ec, <- (Rdistr_l (fringlaws K)), <- !(Rmul_assoc (fringlaws K)); f_equal; apply (Rmul_comm (fringlaws K)).
Qed.
Print Assumptions C17_r2c_backward_forward.
(** coefficients: recovered when those of the zero and Nyquist modes are real (in general
    their real parts are); the values are real *)
Theorem C17_r2c_forward_backward : forall (K : Fld) conj N w (c : nat -> K),
  (2 <= N)%nat -> prim_root K N w -> (fnat N : K) <> 0 -> (1 + 1 : K) <> 0 -> conj_ok K conj -> conj w = finv w ->
  exists u d, backward_r2c K conj N N w false c = Some u /\ forward_r2c K conj N N w u = Some d /\
  (forall j, conj (u j) = u j) /\
  (forall k, (0 < k)%nat -> (2 * k < N)%nat -> d k = c k) /\
  (conj (c 0%nat) = c 0%nat -> d 0%nat = c 0%nat) /\
  ((N mod 2 = 0)%nat -> conj (c (N / 2)%nat) = c (N / 2)%nat -> d (N / 2)%nat = c (N / 2)%nat).
Proof.
  intros K conj N w c HN Hp Hf two Hc cw. pose proof (root_neq_0 K N w ltac:(lia) (proj1 Hp)) as Hw.
  pose proof (Nat.div_mod N 2 ltac:(lia)). pose proof (Nat.mod_upper_bound N 2 ltac:(lia)).
  unfold backward_r2c, forward_r2c. rewrite Nat.eqb_refl. eexists; eexists; split; [reflexivity|]; split; [reflexivity|].
  assert (G : forall k, (k < N)%nat -> rfftn K N w (irfftn K conj N w c) k * finv (fnat N) = hermitian K conj N c k).
  { intros k Hk. change (rfftn K N w (irfftn K conj N w c)) with (fftn K N w (irfftn K conj N w c)).
    rewrite (fftn_ext K N w _ (ifftn K N w (hermitian K conj N c))) by (intros; apply irfftn_herm).
    rewrite fftn_ifftn by (auto; lia). rewrite (Rmul_comm (fringlaws K)), (Rmul_assoc (fringlaws K)), (Finv_l (flaws K)) by auto.
    apply (Rmul_1_l (fringlaws K)). }
  split; [intros j; apply backward_r2c_real; auto; try lia; apply Hp|].
  split; [|split].
  - intros k Hk Hk2. cbv beta. rewrite G by lia. rewrite herm_eq. destruct (Nat.eqb_spec k 0); [lia|].
    destruct (Nat.ltb_spec (2 * k) N); [reflexivity | lia].
  - intros E. cbv beta. rewrite G by lia. rewrite herm_eq. cbn [Nat.eqb]. apply (re_real K conj two). exact E.
  - intros Ev E. cbv beta. rewrite G by lia. rewrite herm_eq. destruct (Nat.eqb_spec (N / 2) 0); [lia|].
    destruct (Nat.ltb_spec (2 * (N / 2)) N); [lia|]. destruct (Nat.eqb_spec (2 * (N / 2)) N); [|lia]. apply (re_real K conj two). exact E.
Qed.
Print Assumptions C17_r2c_forward_backward.
(** the complex numbers satisfy every hypothesis, for every size *)
Example C17_complex : forall N, (2 <= N)%nat -> prim_root CFld N (root N) /\ (fnat N : CFld) <> f0 /\
  (1 + 1 : CFld) <> f0 /\ conj_ok CFld Cconj /\ Cconj (root N) = finv (root N).
Proof.
  intros N HN. split; [apply root_prim; lia|]. split; [apply C_nat_neq; lia|]. split; [exact C_two|]. split; [exact Cconj_ok | apply root_conj].
Qed.
Print Assumptions C17_complex.

(** * C18: padding and truncation *)
Theorem C18_c2c_lossless : forall (K : Fld) N Np (c : nat -> K), (2 <= N)%nat -> (N < Np)%nat -> (1 + 1 : K) <> 0 ->
  exists p t, pad_c2c K N Np c = Some p /\ trunc_c2c K N Np p = Some t /\ forall i, (i < N)%nat -> t i = c i.
Proof. intros; apply trunc_pad; auto. Qed.
Print Assumptions C18_c2c_lossless.
(** the padded expansion takes the values of the unpadded one at every point z = exp(ix)
    (odd N) or at every point of the unpadded grid (even N: the Nyquist mode is symmetrised) *)
Theorem C18_c2c_values : forall (K : Fld) N Np (c : nat -> K) z, (2 <= N)%nat -> (N < Np)%nat -> (1 + 1 : K) <> 0 ->
  z <> 0 -> (N mod 2 = 1)%nat \/ fpow z N = 1 -> exists p, pad_c2c K N Np c = Some p /\
  fsum Np (fun m => p m * zpow K z (wavenumbers_c2c Np false m)) = fsum N (fun k => c k * zpow K z (wavenumbers_c2c N false k)).
Proof.
  intros K N Np c z HN HNp two Hz H. destruct (padded_expansion K N Np c z HN HNp) as [p [E1 E2]]. exists p. split; auto.
  unfold wavenumbers_c2c. rewrite !andb_false_r. cbn [andb]. rewrite E2. apply expansion_sym; auto.
Qed.
Print Assumptions C18_c2c_values.
(** at all other points the padded expansion is the symmetric one: the Nyquist mode is shared
    equally by N/2 and -N/2 *)
Theorem C18_c2c_values_even : forall (K : Fld) N Np (c : nat -> K) z, (2 <= N)%nat -> (N < Np)%nat -> exists p, pad_c2c K N Np c = Some p /\
  fsum Np (fun m => p m * zpow K z (wavenumbers_c2c Np false m)) = bandsum K (N / 2) (fun f => coef K N c f * zpow K z f).
Proof.
  intros K N Np c z HN HNp. destruct (padded_expansion K N Np c z HN HNp) as [p [E1 E2]]. exists p. split; auto.
  unfold wavenumbers_c2c. rewrite !andb_false_r. cbn [andb]. exact E2.
Qed.
Print Assumptions C18_c2c_values_even.
(** R2C: lossless up to the imaginary part of the Nyquist coefficient, which is dropped *)
Theorem C18_r2c_lossless : forall (K : Fld) conj N Np (c : nat -> K), (2 <= N)%nat -> (N < Np)%nat -> (1 + 1 : K) <> 0 -> conj_ok K conj ->
  exists p t, pad_r2c K conj N Np c = Some p /\ trunc_r2c K conj N Np p = Some t /\
  (forall i, (2 * i < N)%nat -> t i = c i) /\
  ((N mod 2 = 0)%nat -> t (N / 2)%nat = (c (N / 2)%nat + conj (c (N / 2)%nat)) * (1 / (1 + 1))).
Proof.
  intros K conj N Np c HN HNp two Hc.
  pose proof (Nat.div_mod N 2 ltac:(lia)). pose proof (Nat.mod_upper_bound N 2 ltac:(lia)).
  pose proof (Nat.div_mod Np 2 ltac:(lia)). pose proof (Nat.mod_upper_bound Np 2 ltac:(lia)).
  unfold pad_r2c, trunc_r2c, slice_op. set (h := (N / 2)%nat) in *.
  rewrite !pyidx_0, !pyidx_pos, !Nat.sub_0_r, !Nat.eqb_refl by lia. unfold bind. replace (h + 1 - 1)%nat with h by lia.
  eexists; eexists; split; [reflexivity|]; split; [reflexivity|]. split.
  - intros i Hi. destruct (Nat.eqb_spec (N mod 2) 0).
    + rewrite upd_other by lia. destruct (Nat.leb_spec 0 i); [|lia]. destruct (Nat.ltb_spec i (0 + (h + 1))); [|lia]. cbn [andb].
      rewrite upd_other by lia. replace (0 + (i - 0))%nat with i by lia. destruct (Nat.leb_spec 0 i); [|lia]. destruct (Nat.ltb_spec i (0 + (h + 1))); [|lia]. cbn [andb]. f_equal. lia.
    + destruct (Nat.leb_spec 0 i); [|lia]. destruct (Nat.ltb_spec i (0 + (h + 1))); [|lia]. cbn [andb].
      replace (0 + (i - 0))%nat with i by lia. destruct (Nat.leb_spec 0 i); [|lia]. destruct (Nat.ltb_spec i (0 + (h + 1))); [|lia]. cbn [andb]. f_equal. lia.
  - intros Ev. rewrite (proj2 (Nat.eqb_eq _ _) Ev). rewrite upd_same.
    destruct (Nat.leb_spec 0 h); [|lia]. destruct (Nat.ltb_spec h (0 + (h + 1))); [|lia]. cbn [andb].
    replace (0 + (h - 0))%nat with h by lia. rewrite upd_same.
    set (x := re K conj (c h)). assert (Ex : conj (x * (1 / (1 + 1))) = x * (1 / (1 + 1))).
    { rewrite (conj_mul K conj Hc), (conj_half K conj Hc two). f_equal. apply (conj_re K conj Hc two). }
    rewrite (re_real K conj two) by exact Ex. rewrite <- (Rmul_assoc (fringlaws K)). rewrite fdiv_mul by auto.
    rewrite (Rmul_comm (fringlaws K)), (Rmul_1_l (fringlaws K)). reflexivity.
Qed.
Print Assumptions C18_r2c_lossless.
(** backward with padding evaluates the same real function (hermitian coefficients) on the fine grid *)
Theorem C18_r2c_values : forall (K : Fld) conj N Np w (c : nat -> K), (2 <= N)%nat -> (N < Np)%nat -> (1 + 1 : K) <> 0 -> conj_ok K conj ->
  fpow w Np = (1 : K) -> exists u, backward_r2c K conj N Np w false c = Some u /\
  forall j, u j = bandsum K (N / 2) (fun f => coef K N (hermitian K conj N c) f * zpow K w (f * Z.of_nat j)).
Proof.
  intros K conj N Np w c HN HNp two Hc H1.
  destruct (backward_r2c_herm K conj Hc two N Np w c HN ltac:(lia) H1) as [u [u' [E1 [E2 E3]]]].
  destruct (backward_pad K N Np w (hermitian K conj N c) HN HNp H1) as [v [F1 F2]].
  exists u. split; auto. intros j. rewrite E3. rewrite E2 in F1. injection F1 as <-. apply F2.
Qed.
Print Assumptions C18_r2c_values.
(** FINDING: for N = 1 the slice -(N//2) is 0, so the one coefficient is copied to all modes
    and truncation raises *)
Theorem C18_single_mode_refuted : exists (c : nat -> QcFld) p, pad_c2c QcFld 1 2 c = Some p /\
  c 0%nat = qc 1 /\ p 0%nat = qc 1 /\ p 1%nat = qc 1 /\ trunc_c2c QcFld 1 2 p = None.
Proof.
  exists (fun _ => qc 1). eexists. split; [vm_compute; reflexivity|]. repeat split.
Qed.
Print Assumptions C18_single_mode_refuted.
Definition pd46 := pad_c2c QcFld 4 6 (fun i => qc (Z.of_nat i + 1)).
Definition tr46 := match pd46 with Some p => trunc_c2c QcFld 4 6 p | None => None end.
Example C18_value : (exists p, pd46 = Some p /\
  forallb (fun i => Qc_eq_bool (p i) (nth i [qc 1; qc 2; qcf 3 2; qc 0; qcf 3 2; qc 4] (qc 0))) (seq 0 6) = true) /\
  (exists t, tr46 = Some t /\ forallb (fun i => Qc_eq_bool (t i) (qc (Z.of_nat i + 1))) (seq 0 4) = true).
Proof. split; eexists; (split; [reflexivity|]); vm_compute; reflexivity. Qed.

(** * C19: direct dealiasing *)
Theorem C19_c2c_partial : forall (K : Fld) N (c : nat -> K) i, (6 <= N)%nat -> (i < N)%nat ->
  dealias_c2c K N c i = if (Z.of_nat (N / 3) <=? Z.abs (wavenumbers_c2c N false i))%Z then 0 else c i.
Proof. intros K N c i HN Hi. unfold wavenumbers_c2c. rewrite andb_false_r. cbn [andb]. apply dealias_c2c_spec; auto. Qed.
Print Assumptions C19_c2c_partial.
Theorem C19_r2c_partial : forall (K : Fld) N (c : nat -> K) i, (3 <= N)%nat -> (i <= N / 2)%nat ->
  dealias_r2c K N c i = if (Z.of_nat (N / 3) <=? Z.abs (wavenumbers_r2c N false i))%Z then 0 else c i.
Proof.
  intros K N c i HN Hi. unfold wavenumbers_r2c, rfftfreq. rewrite andb_false_r. cbn [andb]. rewrite dealias_r2c_spec by auto.
  destruct (Nat.leb_spec (N / 3) i), (Z.leb_spec (Z.of_nat (N / 3)) (Z.abs (Z.of_nat i))); try lia; reflexivity.
Qed.
Print Assumptions C19_r2c_partial.
(** the backward transform applies it *)
Theorem C19_backward_partial : forall (K : Fld) N w (c : nat -> K), (6 <= N)%nat -> exists u v,
  backward_c2c K N N w true c = Some u /\
  backward_c2c K N N w false (fun i => if (Z.of_nat (N / 3) <=? Z.abs (wavenumbers_c2c N false i))%Z then 0 else c i) = Some v /\
  forall j, u j = v j.
Proof.
  intros K N w c HN. unfold backward_c2c. rewrite Nat.eqb_refl. eexists; eexists; split; [reflexivity|]; split; [reflexivity|].
  intros j. apply ifftn_ext. intros k Hk. apply C19_c2c_partial; auto.
Qed.
Print Assumptions C19_backward_partial.
(** FINDING: for N = 3, 4, 5 the slice [1:0] is empty and no mode is removed; for N = 1, 2
    the slice [0:1] removes the mean *)
Theorem C19_small_refuted : forall (K : Fld) (c : nat -> K),
  (forall N i, (3 <= N <= 5)%nat -> dealias_c2c K N c i = c i) /\
  (forall N, (1 <= N <= 2)%nat -> dealias_c2c K N c 0%nat = 0).
Proof.
  intros K c. split; intros N.
  - intros i HN. assert (N = 3 \/ N = 4 \/ N = 5)%nat as [-> | [-> | ->]] by lia; unfold dealias_c2c; cbn [Nat.div Nat.divmod fst pyidx];
      change (pyidx _ (- Z.of_nat 1 + 1)) with 0%nat; destruct (Nat.ltb_spec i 0); try lia; rewrite andb_false_r; reflexivity.
  - intros HN. assert (N = 1 \/ N = 2)%nat as [-> | ->] by lia; reflexivity.
Qed.
Print Assumptions C19_small_refuted.

(** * C20: padded products *)
(** the coefficients of the product are those of the linear convolution; the Nyquist
    coefficient of an even N collects the two frequencies N/2 and -N/2 *)
Definition product_coef {K : Fld} (N : nat) (u v : nat -> K) (i : nat) : K :=
  if (N mod 2 =? 0)%nat && (i =? N / 2)%nat
  then linconv K N u v (Z.of_nat (N / 2)) + linconv K N u v (- Z.of_nat (N / 2))
  else linconv K N u v (wavenumbers_c2c N false i).
Theorem C20_c2c : forall (K : Fld) N Np w (u v : nat -> K), (2 <= N)%nat -> (N < Np)%nat -> (3 * (N / 2) < Np)%nat ->
  prim_root K Np w -> (fnat Np : K) <> 0 ->
  exists r, convolve_fast_c2c K N Np w u v = Some r /\ forall i, (i < N)%nat -> r i = product_coef N u v i.
Proof.
  intros K N Np w u v HN HNp H3 Hp Hf. destruct (convolve_closed K N Np w u v HN HNp Hp Hf) as [r [E Hr]]. exists r. split; auto.
  pose proof (Nat.div_mod N 2 ltac:(lia)). pose proof (Nat.mod_upper_bound N 2 ltac:(lia)).
  intros i Hi. rewrite Hr by auto. unfold product_coef, wavenumbers_c2c. rewrite andb_false_r. cbn [andb].
  destruct ((N mod 2 =? 0)%nat && (i =? N / 2)%nat).
  - rewrite !alias_self by lia. reflexivity.
  - pose proof (fftfreq_bound N i ltac:(lia) Hi). rewrite alias_self by lia. reflexivity.
Qed.
Print Assumptions C20_c2c.
(** padding by 3/2 is enough for all modes of odd N and all modes but Nyquist of even N *)
Theorem C20_c2c_three_halves_partial : forall (K : Fld) N w (u v : nat -> K), (2 <= N)%nat ->
  prim_root K (3 * N / 2) w -> (fnat (3 * N / 2) : K) <> 0 ->
  exists r, convolve_fast_c2c K N (3 * N / 2) w u v = Some r /\
  forall i, (i < N)%nat -> (2 * i <> N)%nat -> r i = linconv K N u v (wavenumbers_c2c N false i).
Proof.
  intros K N w u v HN Hp Hf.
  pose proof (Nat.div_mod N 2 ltac:(lia)). pose proof (Nat.mod_upper_bound N 2 ltac:(lia)).
  pose proof (Nat.div_mod (3 * N) 2 ltac:(lia)). pose proof (Nat.mod_upper_bound (3 * N) 2 ltac:(lia)).
  pose proof (Nat.div_mod (N - 1) 2 ltac:(lia)). pose proof (Nat.mod_upper_bound (N - 1) 2 ltac:(lia)).
  destruct (convolve_closed K N (3 * N / 2) w u v HN ltac:(lia) Hp Hf) as [r [E Hr]]. exists r. split; auto.
  intros i Hi Hi2. rewrite Hr by auto. unfold wavenumbers_c2c. rewrite andb_false_r. cbn [andb].
  pose proof (fftfreq_eq N i ltac:(lia) Hi) as Ef.
  destruct (Nat.eqb_spec (N mod 2) 0), (Nat.eqb_spec i (N / 2)); cbn [andb]; try lia;
    destruct (Nat.ltb_spec i ((N - 1) / 2 + 1)); apply alias_self; lia.
Qed.
Print Assumptions C20_c2c_three_halves_partial.
(** FINDING: for every even N the Nyquist coefficient of the product with 3/2 padding is
    aliased by u_h v_h / 2, h = N/2 (the assertion in the code asks for more than 3/2 + 1/N
    only in its message) *)
Section WithField.
Variable K : Fld.
Add Field KFX : (flaws K).
Theorem C20_nyquist_refuted : forall N w (u v : nat -> K), (2 <= N)%nat -> (N mod 2 = 0)%nat ->
  prim_root K (3 * N / 2) w -> (fnat (3 * N / 2) : K) <> 0 -> (1 + 1 : K) <> 0 ->
  u (N / 2)%nat <> 0 -> v (N / 2)%nat <> 0 ->
  exists r, convolve_fast_c2c K N (3 * N / 2) w u v = Some r /\
  r (N / 2)%nat = product_coef N u v (N / 2) + 1 / (1 + 1) * (u (N / 2)%nat * v (N / 2)%nat) /\
  r (N / 2)%nat <> product_coef N u v (N / 2).
Proof.
  intros N w u v HN Ev Hp Hf two Hu Hv.
  pose proof (Nat.div_mod N 2 ltac:(lia)) as D.
  assert (E3 : (3 * N / 2 = 3 * (N / 2))%nat).
  { rewrite D at 1. rewrite Ev. replace (3 * (2 * (N / 2) + 0))%nat with ((3 * (N / 2)) * 2)%nat by lia. apply Nat.div_mul. lia. }
  destruct (convolve_closed K N (3 * N / 2) w u v HN ltac:(lia) Hp Hf) as [r [E Hr]]. exists r. split; auto.
  assert (V : r (N / 2)%nat = product_coef N u v (N / 2) + 1 / (1 + 1) * (u (N / 2)%nat * v (N / 2)%nat)).
  { rewrite Hr by lia. unfold product_coef. rewrite Ev, !Nat.eqb_refl. cbn [andb]. rewrite E3.
    destruct (alias_nyquist K (N / 2) (linconv K N u v) ltac:(lia)) as [A1 A2]. rewrite A1, A2.
    destruct (linconv_edge K N u v HN Ev) as [B1 B2]. rewrite B1, B2.
    set (x := u (N / 2)%nat * v (N / 2)%nat). set (y := linconv K N u v _). set (z := linconv K N u v _). clearbody x y z.
    clear - two. field. auto. }
  split; auto. rewrite V. intros Z.
  assert (Z2 : 1 / (1 + 1) * (u (N / 2)%nat * v (N / 2)%nat) = 0).
  { set (x := 1 / (1 + 1) * (u (N / 2)%nat * v (N / 2)%nat)) in *. set (y := product_coef N u v (N / 2)) in *. clearbody x y.
    transitivity (y + x - y); [ring | rewrite Z; ring]. }
  revert Z2. apply fmul_neq_0; [|apply fmul_neq_0; auto]. intros Z2. apply (f1_neq_0 K).
  rewrite <- (fdiv_mul K 1 (1 + 1) two), Z2. ring.
Qed.
End WithField.
Print Assumptions C20_nyquist_refuted.
(** R2C: the same for the hermitian extensions *)
Theorem C20_r2c : forall (K : Fld) conj N Np w (u v : nat -> K), (2 <= N)%nat -> (N < Np)%nat -> (3 * (N / 2) < Np)%nat ->
  prim_root K Np w -> (fnat Np : K) <> 0 -> (1 + 1 : K) <> 0 -> conj_ok K conj -> conj w = finv w ->
  exists r, convolve_fast_r2c K conj N Np w u v = Some r /\
  forall k, (k <= N / 2)%nat -> r k = product_coef N (hermitian K conj N u) (hermitian K conj N v) k.
Proof.
  intros K conj N Np w u v HN HNp H3 Hp Hf two Hc cw. pose proof (root_neq_0 K Np w ltac:(lia) (proj1 Hp)) as Hw.
  destruct (convolve_r2c_c2c K conj Hc two N Np w u v HN HNp Hw cw (proj1 Hp)) as [r [r' [E1 [E2 E3]]]].
  destruct (C20_c2c K N Np w (hermitian K conj N u) (hermitian K conj N v) HN HNp H3 Hp Hf) as [s [F1 F2]].
  rewrite E2 in F1. injection F1 as <-. exists r. split; auto. intros k Hk. rewrite E3 by auto. apply F2.
  pose proof (Nat.div_mod N 2 ltac:(lia)). pose proof (Nat.mod_upper_bound N 2 ltac:(lia)). lia.
Qed.
Print Assumptions C20_r2c.
(** the direct convolutions (fast=False): every entry is the sum of products with m + n = p *)
Theorem C20_convolve_1D : forall (K : Fld) N (u v : nat -> K) f, (0 < N)%nat -> (Z.abs f < Z.of_nat N)%Z ->
  convolve_1D K N u v (Z.to_nat (f mod Z.of_nat (2 * N))) = linconv K N u v f.
Proof.
  intros K N u v f HN Hf. pose proof (Z.mod_pos_bound f (Z.of_nat (2 * N)) ltac:(lia)) as B.
  pose proof (Nat.div_mod N 2 ltac:(lia)). pose proof (Nat.mod_upper_bound N 2 ltac:(lia)).
  rewrite convolve_1D_closed by lia.
  change (alias K (2 * N) (2 * (N / 2)) (linconv K N u v) (Z.of_nat (Z.to_nat (f mod Z.of_nat (2 * N)))) = linconv K N u v f).
  rewrite alias_mod by lia. destruct (Z.leb_spec (Z.abs f) (Z.of_nat (2 * (N / 2)))).
  - apply alias_self; lia.
  - lia.
Qed.
Print Assumptions C20_convolve_1D.
Theorem C20_convolve_real_1D : forall (K : Fld) conj N (u v : nat -> K) p, (2 <= N)%nat -> (1 + 1 : K) <> 0 -> conj_ok K conj ->
  conj (u 0%nat) = u 0%nat -> ((N mod 2 = 0)%nat -> conj (u (N / 2)%nat) = u (N / 2)%nat) ->
  conj (v 0%nat) = v 0%nat -> ((N mod 2 = 0)%nat -> conj (v (N / 2)%nat) = v (N / 2)%nat) ->
  (p <= 2 * (N / 2))%nat ->
  convolve_real_1D K conj N u v p = linconv K N (hermitian K conj N u) (hermitian K conj N v) (Z.of_nat p).
Proof. intros. apply convolve_real_closed; auto. Qed.
Print Assumptions C20_convolve_real_1D.
Example C20_complex : forall N, (2 <= N)%nat -> exists r,
  convolve_fast_r2c CFld Cconj N (2 * N) (root (2 * N)) (fun i => (INR i, INR i)) (fun _ => (1, 0)%R) = Some r /\
  forall k, (k <= N / 2)%nat -> r k = product_coef N (hermitian CFld Cconj N (fun i => (INR i, INR i))) (hermitian CFld Cconj N (fun _ => (1, 0)%R)) k.
Proof.
  intros N HN. pose proof (Nat.div_mod N 2 ltac:(lia)). apply C20_r2c; try lia.
  - apply root_prim; lia. - apply C_nat_neq; lia. - exact C_two. - exact Cconj_ok. - apply root_conj.
Qed.
(** cos(x)^2 with 4 modes: 1/2 + cos(2x)/2 *)
Example C20_value : forallb (fun p => Qc_eq_bool (convolve_1D QcFld 4 (fun i => nth i [qc 0; qcf 1 2; qc 0; qcf 1 2] (qc 0)) (fun i => nth i [qc 0; qcf 1 2; qc 0; qcf 1 2] (qc 0)) p)
  (nth p [qcf 1 2; qc 0; qcf 1 4; qc 0; qc 0; qc 0; qcf 1 4; qc 0] (qc 0))) (seq 0 8) = true.
Proof. vm_compute. reflexivity. Qed.

(** * C21: energy *)
Section WithField.
Variable K : Fld.
Add Field KFY : (flaws K).
(** C2C: the energy of the coefficients is the mean square of the values *)
Theorem C21_c2c : forall conj N w (u : nat -> K), (0 < N)%nat -> prim_root K N w -> (fnat N : K) <> 0 -> (1 + 1 : K) <> 0 -> conj_ok K conj -> conj w = finv w ->
  exists c, forward_c2c K N N w u = Some c /\
  energy_1d K conj false N c = finv (fnat N) * fsum N (fun j => u j * conj (u j)).
Proof.
  intros conj N w u HN Hp Hf two Hc cw. unfold forward_c2c. rewrite Nat.eqb_refl. eexists. split; [reflexivity|].
  unfold energy_1d. cbv zeta.
  rewrite (fsum_ext K N _ (fun k => finv (fnat N) * finv (fnat N) * abs2 K conj (fftn K N w u k))).
  - rewrite fsum_scal, (parseval K conj Hc N w u HN Hp cw). unfold abs2. set (s := fsum N _). clearbody s. clear - Hf. field. auto.
  - intros k Hk. unfold abs2. rewrite (conj_mul K conj Hc), (conj_inv K conj Hc), (conj_nat K conj Hc) by auto. ring.
Qed.
Lemma forward_real_sym : forall conj N w (u : nat -> K), (0 < N)%nat -> prim_root K N w -> (fnat N : K) <> 0 -> conj_ok K conj -> conj w = finv w ->
  (forall j, (j < N)%nat -> conj (u j) = u j) -> forall c, forward_r2c K conj N N w u = Some c ->
  forward_c2c K N N w u = Some c /\ forall k, (0 < k < N)%nat -> abs2 K conj (c (N - k)%nat) = abs2 K conj (c k).
Proof.
  intros conj N w u HN Hp Hf Hc cw Hu c E. pose proof (root_neq_0 K N w HN (proj1 Hp)) as Hw.
  unfold forward_r2c, forward_c2c in *. rewrite Nat.eqb_refl in *. change (rfftn K N w u) with (fftn K N w u) in E. split; auto.
  injection E as <-. intros k Hk. unfold abs2. rewrite !(conj_mul K conj Hc), (conj_inv K conj Hc), (conj_nat K conj Hc) by auto.
  rewrite !(fftn_conj K conj Hc w Hw cw N) by (auto; try lia; apply Hp). replace (N - (N - k))%nat with k by lia. ring.
Qed.
(** R2C in a tensor product space, aligned in the r2c axis *)
Theorem C21_r2c_aligned : forall conj N w (u : nat -> K), (0 < N)%nat -> prim_root K N w -> (fnat N : K) <> 0 -> (1 + 1 : K) <> 0 -> conj_ok K conj -> conj w = finv w ->
  (forall j, (j < N)%nat -> conj (u j) = u j) -> exists c, forward_r2c K conj N N w u = Some c /\
  energy_aligned K N (fun k => abs2 K conj (c k)) = finv (fnat N) * fsum N (fun j => u j * conj (u j)).
Proof.
  intros conj N w u HN Hp Hf two Hc cw Hu.
  assert (exists c, forward_r2c K conj N N w u = Some c) as [c E] by (unfold forward_r2c; rewrite Nat.eqb_refl; eauto).
  exists c. split; auto. destruct (forward_real_sym conj N w u HN Hp Hf Hc cw Hu c E) as [E2 S].
  rewrite <- (sum_half_full K N (fun k => abs2 K conj (c k))) by auto.
  destruct (C21_c2c conj N w u HN Hp Hf two Hc cw) as [c' [E3 V]]. rewrite E2 in E3. injection E3 as <-.
  unfold energy_1d in V. cbv zeta in V. exact V.
Qed.
(** R2C distributed over ranks along the r2c axis in consecutive blocks: the sum over the ranks
    is the aligned value when every rank of an even N holds two or more coefficients *)
Theorem C21_ranks_partial : forall N (f : nat -> K) chunks, (0 < N)%nat -> contiguous 0 (N / 2 + 1) chunks ->
  ((N mod 2 = 0)%nat -> Forall (fun p => fst p + 2 <= snd p)%nat chunks) ->
  energy_ranks K N chunks f = energy_aligned K N f.
Proof. intros N f chunks HN H He. rewrite energy_aligned_wgt by auto. apply energy_ranks_wgt; auto. Qed.
Example C21_ranks_inhabited : contiguous 0 (16 / 2 + 1) [(0, 3); (3, 6); (6, 9)]%nat /\
  Forall (fun p => fst p + 2 <= snd p)%nat [(0, 3); (3, 6); (6, 9)]%nat.
Proof. split; [vm_compute; repeat split; lia | repeat constructor]. Qed.
(** FINDING: a rank of an even-sized axis that holds a single coefficient counts it twice
    (s[uaxis]=0 and s[uaxis]=-1 are the same entry): 8 ranks, N = 14 *)
Theorem C21_ranks_refuted : forall (f : nat -> K),
  energy_ranks K 4 [(0, 2); (2, 3)]%nat f = energy_aligned K 4 f + f 2%nat * (1 + 1).
Proof. intros f. unfold energy_ranks, energy_aligned, energy_local, sum_from_to. simpl. change (@fsum K 0 ?g) with (f0 : K). cbn. ring. Qed.
(** FINDING: for a one-dimensional R2C basis the parity of the number of coefficients
    N//2+1 is tested instead of that of N; right only for N = 1, 2 modulo 4 *)
Lemma energy_1d_parity : forall conj N (u : nat -> K), (0 < N)%nat -> ((N mod 2) + ((N / 2 + 1) mod 2) <> 1)%nat ->
  energy_1d K conj true (N / 2 + 1) u = energy_aligned K N (fun k => abs2 K conj (u k)).
Proof.
  intros conj N u HN H. unfold energy_1d, energy_aligned. cbv zeta.
  pose proof (Nat.mod_upper_bound N 2 ltac:(lia)). pose proof (Nat.mod_upper_bound (N / 2 + 1) 2 ltac:(lia)).
  destruct (Nat.eqb_spec ((N / 2 + 1) mod 2) 0), (Nat.eqb_spec (N mod 2) 0); try reflexivity; lia.
Qed.
Theorem C21_1d_r2c_partial : forall conj N (u : nat -> K), (0 < N)%nat -> (N mod 4 = 1)%nat \/ (N mod 4 = 2)%nat ->
  energy_1d K conj true (N / 2 + 1) u = energy_aligned K N (fun k => abs2 K conj (u k)).
Proof.
  intros conj N u HN H. apply energy_1d_parity; auto.
  pose proof (Nat.div_mod N 4 ltac:(lia)) as D4. pose proof (Nat.div_mod N 2 ltac:(lia)) as D2. pose proof (Nat.mod_upper_bound N 2 ltac:(lia)).
  pose proof (Nat.div_mod (N / 2 + 1) 2 ltac:(lia)) as D3. pose proof (Nat.mod_upper_bound (N / 2 + 1) 2 ltac:(lia)). lia.
Qed.
Lemma fsum_snoc_1 : forall n (g : nat -> K), (1 <= n)%nat -> fsum n g = fsum (n - 1) g + g (n - 1)%nat.
Proof. intros n g H. destruct n; [lia|]. simpl. rewrite Nat.sub_0_r. reflexivity. Qed.
Theorem C21_1d_r2c_refuted : forall conj N (u : nat -> K), (0 < N)%nat ->
  ((N mod 4 = 0)%nat -> energy_1d K conj true (N / 2 + 1) u = energy_aligned K N (fun k => abs2 K conj (u k)) + abs2 K conj (u (N / 2)%nat)) /\
  ((N mod 4 = 3)%nat -> energy_1d K conj true (N / 2 + 1) u = energy_aligned K N (fun k => abs2 K conj (u k)) - abs2 K conj (u (N / 2)%nat)).
Proof.
  intros conj N u HN.
  pose proof (Nat.div_mod N 4 ltac:(lia)) as D4. pose proof (Nat.div_mod N 2 ltac:(lia)) as D2. pose proof (Nat.mod_upper_bound N 2 ltac:(lia)).
  pose proof (Nat.div_mod (N / 2 + 1) 2 ltac:(lia)) as D3. pose proof (Nat.mod_upper_bound (N / 2 + 1) 2 ltac:(lia)).
  unfold energy_1d, energy_aligned, sum_from_to. cbv zeta. replace (N / 2 + 1 - 1)%nat with (N / 2)%nat by lia. split; intros H4.
  - destruct (Nat.eqb_spec ((N / 2 + 1) mod 2) 0); [lia|]. destruct (Nat.eqb_spec (N mod 2) 0); [|lia].
    rewrite (fsum_snoc_1 (N / 2)) by lia. replace (1 + (N / 2 - 1))%nat with (N / 2)%nat by lia. ring.
  - destruct (Nat.eqb_spec ((N / 2 + 1) mod 2) 0); [|lia]. destruct (Nat.eqb_spec (N mod 2) 0); [lia|].
    rewrite (fsum_snoc_1 (N / 2) (fun t => abs2 K conj (u (1 + t)%nat))) by lia. replace (1 + (N / 2 - 1))%nat with (N / 2)%nat by lia. ring.
Qed.
End WithField.
Print Assumptions C21_c2c.
Print Assumptions C21_r2c_aligned.
Print Assumptions C21_ranks_partial.
Print Assumptions C21_ranks_refuted.
Print Assumptions C21_1d_r2c_partial.
Print Assumptions C21_1d_r2c_refuted.
