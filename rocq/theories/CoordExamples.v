(** CoordExamples.v -- the hypotheses of C51 at concrete coordinates and functions. *)
From Coq Require Import Reals ZArith List Bool Arith Lia Lra.
From Verif Require Import FormsModel FormsSpec FormsProofs FormsProofs2 FormsProofs3 FormsProofs4 CoordModel CoordSpec CoordProofs CoordWitness CoordProperties.
Import ListNotations.
Local Open Scope R_scope.

(** polar coordinates (r, theta), and (theta, r) as in demo/unitdisc_helmholtz.py *)
Definition polar (a : nat) : CSym := match a with 0%nat => CMul (CVar 0) (CCos (CVar 1)) | _ => CMul (CVar 0) (CSin (CVar 1)) end.
Definition polar' (a : nat) : CSym := match a with 0%nat => CMul (CVar 1) (CCos (CVar 0)) | _ => CMul (CVar 1) (CSin (CVar 0)) end.
(** the lateral surface of a cylinder *)
Definition cylinder (a : nat) : CSym := match a with 0%nat => CCos (CVar 0) | 1%nat => CSin (CVar 0) | _ => CVar 1 end.
(** stretched coordinates, and Cartesian coordinates *)
Definition stretched (a : nat) : CSym := match a with 0%nat => CMul (CVar 0) (CVar 0) | _ => CVar 1 end.
Definition cart2 (a : nat) : CSym := CVar a.

Definition is_some {A} (o : option A) : bool := match o with Some _ => true | None => false end.
Lemma some_ex A (o : option A) : is_some o = true -> exists x, o = Some x. Proof. destruct o; [eauto|discriminate]. Qed.
Lemma some_bind A B (o : option A) (k : A -> option B) : is_some (match o with Some x => k x | None => None end) = true ->
  exists x z, o = Some x /\ k x = Some z.
Proof. destruct o as [x|]; [|discriminate]. intros H. destruct (some_ex _ _ H) as (z & E). exists x, z. split; [reflexivity|exact E]. Qed.
Lemma sc2 t : sin t * sin t + cos t * cos t = 1. Proof. exact (sin2_cos2 t). Qed.
Ltac two := intros a Ha; destruct a as [|[|a]]; [| |lia].
Lemma polar_regular y : 0 < y 0%nat -> 0 < y 1%nat -> regular CLaws 2 2 polar y.
Proof.
  intros H0 H1. split; [|split].
  - two; cbn; unfold cdom; tauto.
  - cbn. unfold cdom. tauto.
  - cbn. pose proof (sc2 (y 1%nat)) as E. set (s := sin (y 1%nat)) in *. set (c := cos (y 1%nat)) in *. unfold rsign; cbn [Nat.even].
    match goal with |- 0 < ?t => replace t with ((s * s + c * c) * (s * s + c * c) * (y 0%nat * y 0%nat)) by ring end. rewrite E. nra.
Qed.
Lemma polar'_regular y : 0 < y 0%nat -> 0 < y 1%nat -> regular CLaws 2 2 polar' y.
Proof.
  intros H0 H1. split; [|split].
  - two; cbn; unfold cdom; tauto.
  - cbn. unfold cdom. tauto.
  - cbn. pose proof (sc2 (y 0%nat)) as E. set (s := sin (y 0%nat)) in *. set (c := cos (y 0%nat)) in *. unfold rsign; cbn [Nat.even].
    match goal with |- 0 < ?t => replace t with ((s * s + c * c) * (s * s + c * c) * (y 1%nat * y 1%nat)) by ring end. rewrite E. nra.
Qed.
Lemma cylinder_regular y : 0 < y 0%nat -> 0 < y 1%nat -> regular CLaws 2 3 cylinder y.
Proof.
  intros H0 H1. split; [|split].
  - intros a Ha. destruct a as [|[|[|a]]]; [| | |lia]; cbn; unfold cdom; tauto.
  - cbn. unfold cdom. tauto.
  - cbn. pose proof (sc2 (y 0%nat)) as E. set (s := sin (y 0%nat)) in *. set (c := cos (y 0%nat)) in *. unfold rsign; cbn [Nat.even].
    match goal with |- 0 < ?t => replace t with (s * s + c * c) by ring end. rewrite E. lra.
Qed.
(** the three kinds of coordinates that the operators distinguish *)
Example C51_kinds_example : is_cartesian 2 2 cart2 = true /\ is_cartesian 2 2 stretched = false /\ is_orthogonal 2 2 stretched = true /\
  is_cartesian 2 2 polar = false /\ is_cartesian 2 3 cylinder = false /\
  (forall y, 0 < y 0%nat -> 0 < y 1%nat -> regular CLaws 2 2 cart2 y /\ regular CLaws 2 2 stretched y).
Proof.
  repeat (split; [reflexivity|]). intros y H0 H1. split.
  - split; [two; cbn; unfold cdom; tauto|]. split; [cbn; unfold cdom; tauto|]. cbn. unfold rsign. cbn. lra.
  - split; [two; cbn; unfold cdom; tauto|]. split; [cbn; unfold cdom; tauto|]. cbn. unfold rsign. cbn.
    match goal with |- 0 < ?t => replace t with (4 * (y 0%nat * y 0%nat)) by ring end. nra.
Qed.

(** *** f = x^2 + y^2 = r^2 *)
Definition u2 (k : nat) (l : list nat) (z : pt) : R :=
  match l with [0; 0]%nat => z 0%nat * z 0%nat | [1; 0]%nat => 2 * z 0%nat | [2; 0]%nat => 2 | _ => 0 end.
Lemma lin_d c x : derivable_pt_lim (fun h => c + h) x 1.
Proof.
  replace 1 with (0 + 1) by ring. apply (derivable_pt_lim_plus (fun _ => c) (fun h => h)); [apply derivable_pt_lim_const|apply derivable_pt_lim_id].
Qed.
Lemma u2_smooth y : smooth 2 u2 y.
Proof.
  intros k l l' i Hl Hi [H1 H2]. destruct l as [|a [|b [|c l]]]; try discriminate. destruct l' as [|a' [|b' [|c' l']]]; try discriminate.
  pose proof (H2 0%nat) as E0. pose proof (H2 1%nat) as E1. cbn [nth] in E0, E1.
  destruct i as [|[|i]]; [| |lia]; cbn [Nat.eqb] in E0, E1; rewrite Nat.add_0_r in *; subst a' b'; cbn [u2].
  - destruct b as [|b].
    + destruct a as [|[|[|a]]]; cbn [Nat.add]; unfold partial, shift; cbn [Nat.eqb].
      * change (derivable_pt_lim (mult_fct (fun h => y 0%nat + h) (fun h => y 0%nat + h)) 0 (2 * y 0%nat)).
        replace (2 * y 0%nat) with (1 * (y 0%nat + 0) + (y 0%nat + 0) * 1) by ring.
        apply (derivable_pt_lim_mult (fun h => y 0%nat + h) (fun h => y 0%nat + h)); apply lin_d.
      * change (derivable_pt_lim (mult_real_fct 2 (fun h => y 0%nat + h)) 0 2).
        replace 2 with (2 * 1) at 2 by ring. apply (derivable_pt_lim_scal (fun h => y 0%nat + h)), lin_d.
      * apply derivable_pt_lim_const.
      * apply derivable_pt_lim_const.
    + assert (X : forall q h, match q with 0%nat => 0 | 1%nat => 0 | _ => 0 end = (0 : R) -> h = (0 : R) -> True) by trivial.
      destruct a as [|[|[|a]]]; cbn [Nat.add]; apply derivable_pt_lim_const.
  - assert (Z : (b + 1)%nat = Datatypes.S b) by lia. rewrite Z. unfold partial, shift. destruct b as [|b]; destruct a as [|[|[|a]]]; cbn [u2 Nat.eqb]; match goal with |- derivable_pt_lim (fun _ => ?c) _ _ => apply (derivable_pt_lim_const c) end.
Qed.
Lemma frechet_sq p : frechet 2 (fun q => q 0%nat * q 0%nat + q 1%nat * q 1%nat) p (fun a => 2 * p a).
Proof.
  intros eps He. exists eps. split; [exact He|]. intros q Hq. pose proof (Hq 0%nat ltac:(lia)) as A. pose proof (Hq 1%nat ltac:(lia)) as B. cbn [rsum].
  set (a := q 0%nat - p 0%nat) in *. set (b := q 1%nat - p 1%nat) in *.
  match goal with |- Rabs ?t <= _ => replace t with (a * a + b * b) by (unfold a, b; ring) end.
  eapply Rle_trans; [apply Rabs_triang|]. rewrite !Rabs_mult. pose proof (Rabs_pos a). pose proof (Rabs_pos b). nra.
Qed.
Lemma frechet_lin k c p : (c < 2)%nat -> frechet 2 (fun q => k * q c) p (fun a => k * kron c a).
Proof.
  intros Hc eps He. exists 1. split; [lra|]. intros q _.
  match goal with |- Rabs ?t <= _ => replace t with 0 end.
  - rewrite Rabs_R0. cbn [rsum]. pose proof (Rabs_pos (q 0%nat - p 0%nat)). pose proof (Rabs_pos (q 1%nat - p 1%nat)). nra.
  - cbn [rsum]. unfold kron. destruct c as [|[|c]]; [| |lia]; cbn [Nat.eqb]; ring.
Qed.
Definition f2 : expr CSym := basis_expr 2 1 0.
Lemma f2_pulls z : mean CLaws f2 0 u2 z = pos CLaws polar z 0 * pos CLaws polar z 0 + pos CLaws polar z 1 * pos CLaws polar z 1.
Proof.
  unfold f2. rewrite (basis_mean CLaws) by lia. cbn. pose proof (sc2 (z 1%nat)) as E. set (s := sin (z 1%nat)) in *. set (c := cos (z 1%nat)) in *.
  match goal with |- _ = ?t => replace t with (z 0%nat * z 0%nat * (s * s + c * c)) by ring end. rewrite E. ring.
Qed.
(** its gradient is 2 (x, y) and div(grad f) = 4 *)
Example C51_polar_example : forall normal, exists g d, grad (coords_of 2 2 polar normal) f2 = Some g /\ div (coords_of 2 2 polar normal) g = Some d /\
  forall y, 0 < y 0%nat -> 0 < y 1%nat ->
    (forall a, (a < 2)%nat -> vec CLaws 2 2 polar normal g u2 y a = 2 * pos CLaws polar y a) /\ mean CLaws d 0 u2 y = 4.
Proof.
  intros normal.
  assert (E : exists g d, grad (coords_of 2 2 polar normal) f2 = Some g /\ div (coords_of 2 2 polar normal) g = Some d).
  { apply some_bind. destruct normal; vm_compute; reflexivity. }
  destruct E as (g & d & Eg & Ed). exists g, d. split; [exact Eg|]. split; [exact Ed|]. intros y H0 H1.
  pose proof (polar_regular y H0 H1) as Ry. assert (W : wf f2) by apply (basis_wf 2 1 0).
  assert (Dy : defined CLaws f2 y) by (apply (basis_defined CLaws); cbn; unfold cdom; tauto).
  assert (HP : pulls CLaws 2 polar (fun q => q 0%nat * q 0%nat + q 1%nat * q 1%nat) (mean CLaws f2 0 u2) y).
  { intros i Hi. exists 1. split; [lra|]. intros h _. apply f2_pulls. }
  split.
  - destruct (C51_grad CSym CLaws 2 polar normal f2 g ltac:(lia) W eq_refl eq_refl Eg) as [_ M].
    exact (proj2 (M y u2 _ (fun a => 2 * pos CLaws polar y a) Ry Dy (u2_smooth y) (frechet_sq _) HP)).
  - rewrite (C51_laplace CSym CLaws 2 polar normal f2 g d ltac:(lia) W eq_refl eq_refl Eg Ed y u2
      (fun q => q 0%nat * q 0%nat + q 1%nat * q 1%nat) (fun a q => 2 * q a) (fun c a => 2 * kron c a) Ry Dy (u2_smooth y)).
    + cbn. ring.
    + exists 1. split; [lra|]. intros z _. split; [apply f2_pulls|]. split; [apply u2_smooth|]. apply frechet_sq.
    + intros a Ha. apply frechet_lin, Ha.
Qed.

(** *** the rotation (-y, x), whose curl is 2, is r times the unit vector along theta *)
Definition u0 (j : nat) (k : nat) (l : list nat) (z : pt) : R :=
  if Nat.eqb k j then match l with [0; 0]%nat => 1 | _ => 0 end else 0.
Lemma u0_smooth j y : smooth 2 (u0 j) y.
Proof.
  intros k l l' i Hl Hi [H1 H2]. unfold u0. destruct (Nat.eqb k j); [|apply derivable_pt_lim_const].
  destruct l as [|a [|b [|c l]]]; try discriminate. destruct l' as [|a' [|b' [|c' l']]]; try discriminate.
  pose proof (H2 0%nat) as E0. pose proof (H2 1%nat) as E1. cbn [nth] in E0, E1.
  replace (match a' with 0%nat => match b' with 0%nat => 1 | Datatypes.S _ => 0 end | Datatypes.S _ => 0 end) with 0; [apply derivable_pt_lim_const|].
  destruct a' as [|a']; [|reflexivity]. destruct b' as [|b']; [|reflexivity]. destruct i as [|[|i]]; cbn in E0, E1; lia.
Qed.
Definition rot (a : nat) (q : nat -> R) : R := match a with 0%nat => -1 * q 1%nat | _ => 1 * q 0%nat end.
Definition drot (a c : nat) : R := match a with 0%nat => -1 * kron 1 c | _ => 1 * kron 0 c end.
Definition v2 : expr CSym := basis_expr 2 2 0.
Lemma rot_frechet p a : (a < 2)%nat -> frechet 2 (rot a) p (drot a).
Proof. intros Ha. destruct a as [|[|a]]; [| |lia]; [apply (frechet_lin (-1) 1 p)|apply (frechet_lin 1 0 p)]; lia. Qed.
(** in the coordinates (r, theta) the result is 2, in the coordinates (theta, r) it is -2 *)
Example C51_curl_example : exists w w', curl (coords_of 2 2 polar false) v2 = Some w /\ curl (coords_of 2 2 polar' false) v2 = Some w' /\
  forall y, 0 < y 0%nat -> 0 < y 1%nat -> mean CLaws w 0 (u0 1) y = 2 /\ mean CLaws w' 0 (u0 0) y = -2.
Proof.
  assert (E0 : is_some (curl (coords_of 2 2 polar false) v2) = true) by (vm_compute; reflexivity). destruct (curl (coords_of 2 2 polar false) v2) as [w|] eqn:E; [clear E0|discriminate].
  assert (E'0 : is_some (curl (coords_of 2 2 polar' false) v2) = true) by (vm_compute; reflexivity). destruct (curl (coords_of 2 2 polar' false) v2) as [w'|] eqn:E'; [clear E'0|discriminate].
  exists w, w'. split; [reflexivity|]. split; [reflexivity|]. intros y H0 H1.
  assert (W : wf v2) by apply (basis_wf 2 2 0). assert (Dy : defined CLaws v2 y) by (apply (basis_defined CLaws); cbn; unfold cdom; tauto).
  split.
  - rewrite (C51_curl_2d CSym CLaws polar false v2 w W eq_refl eq_refl E y (u0 1) rot drot (polar_regular y H0 H1) Dy (u0_smooth 1 y)).
    + cbn. ring.
    + cbn. pose proof (sc2 (y 1%nat)) as Q. set (s := sin (y 1%nat)) in *. set (c := cos (y 1%nat)) in *. unfold rsign; cbn [Nat.even].
      match goal with |- 0 < ?t => replace t with (y 0%nat * (s * s + c * c)) by ring end. rewrite Q. lra.
    + intros a Ha. apply rot_frechet, Ha.
    + intros a Ha i Hi. exists 1. split; [lra|]. intros h _. set (z := shift y i h). unfold CoordSpec.vec, v2. cbn [rsum].
      rewrite !(basis_mean CLaws) by lia. destruct a as [|[|a]]; [| |lia]; cbn; ring.
  - rewrite (proj2 (C51_curl_left_handed_refuted CSym CLaws polar' false v2 w' y (u0 0) rot drot) W eq_refl eq_refl E' (polar'_regular y H0 H1) Dy (u0_smooth 0 y)).
    + cbn. ring.
    + cbn. pose proof (sc2 (y 0%nat)) as Q. set (s := sin (y 0%nat)) in *. set (c := cos (y 0%nat)) in *. unfold rsign; cbn [Nat.even].
      match goal with |- ?t < 0 => replace t with (- (y 1%nat * (s * s + c * c))) by ring end. rewrite Q. lra.
    + intros a Ha. apply rot_frechet, Ha.
    + intros a Ha i Hi. exists 1. split; [lra|]. intros h _. set (z := shift y i h). unfold CoordSpec.vec, v2. cbn [rsum].
      rewrite !(basis_mean CLaws) by lia. destruct a as [|[|a]]; [| |lia]; cbn; ring.
Qed.
(** its divergence is 0, its gradient the antisymmetric matrix, and the divergence of that 0 *)
Example C51_field_example : exists d g t, div (coords_of 2 2 polar false) v2 = Some d /\ grad (coords_of 2 2 polar false) v2 = Some g /\
  div (coords_of 2 2 polar false) g = Some t /\
  forall y, 0 < y 0%nat -> 0 < y 1%nat -> mean CLaws d 0 (u0 1) y = 0 /\
    (forall a c, (a < 2)%nat -> (c < 2)%nat -> ten CLaws 2 2 polar false g (u0 1) y a c = drot a c) /\
    (forall a, (a < 2)%nat -> vec CLaws 2 2 polar false t (u0 1) y a = 0).
Proof.
  assert (Ed0 : is_some (div (coords_of 2 2 polar false) v2) = true) by (vm_compute; reflexivity). destruct (div (coords_of 2 2 polar false) v2) as [d|] eqn:Ed; [clear Ed0|discriminate].
  assert (X : exists g t, grad (coords_of 2 2 polar false) v2 = Some g /\ div (coords_of 2 2 polar false) g = Some t) by (apply some_bind; vm_compute; reflexivity).
  destruct X as (g & t & Eg & Et).
  exists d, g, t. split; [reflexivity|]. split; [exact Eg|]. split; [exact Et|].
  assert (W : wf v2) by apply (basis_wf 2 2 0).
  assert (HP : forall z a, (a < 2)%nat -> vec CLaws 2 2 polar false v2 (u0 1) z a = rot a (pos CLaws polar z)).
  { intros z a Ha. unfold CoordSpec.vec, v2. cbn [rsum]. rewrite !(basis_mean CLaws) by lia. destruct a as [|[|a]]; [| |lia]; cbn; ring. }
  assert (Hpl : forall z a, (a < 2)%nat -> pulls CLaws 2 polar (rot a) (fun w => vec CLaws 2 2 polar false v2 (u0 1) w a) z).
  { intros z a Ha i Hi. exists 1. split; [lra|]. intros h _. apply HP, Ha. }
  assert (Dy : forall y, 0 < y 0%nat -> 0 < y 1%nat -> defined CLaws v2 y) by (intros y H0 H1; apply (basis_defined CLaws); cbn; unfold cdom; tauto).
  destruct (C51_grad_vector CSym CLaws 2 polar false v2 g ltac:(lia) W eq_refl eq_refl Eg) as [Ng M].
  assert (M' : forall y, 0 < y 0%nat -> 0 < y 1%nat -> defined CLaws g y /\
     forall a c, (a < 2)%nat -> (c < 2)%nat -> ten CLaws 2 2 polar false g (u0 1) y a c = drot a c).
  { intros y H0 H1. apply (M y (u0 1) rot drot (polar_regular y H0 H1) (Dy y H0 H1) (u0_smooth 1 y)); [intros a Ha; apply rot_frechet, Ha|apply Hpl]. }
  intros y H0 H1. split; [|split].
  - rewrite (C51_div CSym CLaws 2 polar false v2 d ltac:(lia) W eq_refl eq_refl Ed y (u0 1) rot drot (polar_regular y H0 H1) (Dy y H0 H1) (u0_smooth 1 y)).
    + cbn. ring.
    + intros a Ha. apply rot_frechet, Ha.
    + apply Hpl.
  - apply M'; assumption.
  - assert (Wg : wf g /\ e_dim g = 2%nat /\ expr_rank g = Some 2%nat).
    { destruct (CoordProofs7.grad_vec_ok CLaws 2 2 polar false ltac:(lia) v2 g ltac:(lia) W eq_refl eq_refl Eg) as (Dg & _ & Wg & _).
      split; [exact Wg|]. split; [exact Dg|].
      assert (Q : match grad (coords_of 2 2 polar false) v2 with Some g => expr_rank g | None => None end = Some 2%nat) by (vm_compute; reflexivity).
      rewrite Eg in Q. exact Q. }
    destruct Wg as (Wg & Dg & Rg). destruct (C51_div_tensor CSym CLaws 2 polar false g t ltac:(lia) Wg Dg Rg Et) as [_ T].
    destruct (T y (u0 1) (fun a c _ => drot a c) (fun _ _ _ => 0) (polar_regular y H0 H1) (proj1 (M' y H0 H1)) (u0_smooth 1 y)) as [_ V].
    + intros a c _ _ eps He. exists 1. split; [lra|]. intros q _. cbn [rsum].
      match goal with |- Rabs ?x <= _ => replace x with 0 by ring end. rewrite Rabs_R0.
      pose proof (Rabs_pos (q 0%nat - pos CLaws polar y 0%nat)). pose proof (Rabs_pos (q 1%nat - pos CLaws polar y 1%nat)). nra.
    + intros a c Ha Hc i Hi.
      assert (N0 : exists del, 0 < del /\ forall h, Rabs h < del -> 0 < shift y i h 0%nat /\ 0 < shift y i h 1%nat).
      { destruct (near_and _ _ _ _ (pos_open y i 0 H0) (pos_open y i 1 H1)) as (del & A & Z). exists del. auto. }
      destruct N0 as (del & Hdel & K). exists del. split; [exact Hdel|]. intros h Hh. destruct (K h Hh). apply M'; assumption.
    + intros a Ha. rewrite V by exact Ha. cbn. ring.
Qed.
(** on the cylinder: the gradient of the height z is the unit vector along the axis *)
Definition uz (k : nat) (l : list nat) (z : pt) : R := match l with [0; 0]%nat => z 1%nat | [0; 1]%nat => 1 | _ => 0 end.
Lemma uz_smooth y : smooth 2 uz y.
Proof.
  intros k l l' i Hl Hi [H1 H2]. destruct l as [|a [|b [|c l]]]; try discriminate. destruct l' as [|a' [|b' [|c' l']]]; try discriminate.
  pose proof (H2 0%nat) as E0. pose proof (H2 1%nat) as E1. cbn [nth] in E0, E1.
  destruct i as [|[|i]]; [| |lia]; cbn [Nat.eqb] in E0, E1; rewrite Nat.add_0_r in *; subst a' b'; cbn [uz].
  - replace (a + 1)%nat with (Datatypes.S a) by lia. unfold partial, shift. destruct a as [|a]; destruct b as [|[|b]]; cbn [uz Nat.eqb]; match goal with |- derivable_pt_lim (fun _ => ?c) _ _ => apply (derivable_pt_lim_const c) end.
  - replace (b + 1)%nat with (Datatypes.S b) by lia. destruct a as [|a]; [|apply derivable_pt_lim_const]. destruct b as [|[|b]]; [|apply derivable_pt_lim_const|apply derivable_pt_lim_const].
    unfold partial, shift. cbn. apply lin_d.
Qed.
Example C51_surface_example : exists g, grad (coords_of 2 3 cylinder true) f2 = Some g /\
  forall y P, 0 < y 0%nat -> 0 < y 1%nat -> projection CLaws 2 3 cylinder P y ->
    forall a, (a < 3)%nat -> vec CLaws 2 3 cylinder true g uz y a = P a 2%nat.
Proof.
  assert (Eg0 : is_some (grad (coords_of 2 3 cylinder true) f2) = true) by (vm_compute; reflexivity). destruct (grad (coords_of 2 3 cylinder true) f2) as [g|] eqn:Eg; [clear Eg0|discriminate]. exists g. split; [reflexivity|].
  intros y P H0 H1 HP a Ha.
  rewrite (C51_grad_surface CSym CLaws 2 3 cylinder true f2 g ltac:(lia) (basis_wf 2 1 0) eq_refl eq_refl Eg y uz (fun q => q 2%nat) (fun c => kron 2 c) P
    (cylinder_regular y H0 H1)); [cbn; ring| | | | |exact HP|exact Ha].
  - apply (basis_defined CLaws). cbn. unfold cdom. tauto.
  - apply uz_smooth.
  - intros eps He. exists 1. split; [lra|]. intros q _. cbn [rsum]. unfold kron. cbn [Nat.eqb].
    match goal with |- Rabs ?x <= _ => replace x with 0 by ring end. rewrite Rabs_R0.
    pose proof (Rabs_pos (q 0%nat - pos CLaws cylinder y 0%nat)). pose proof (Rabs_pos (q 1%nat - pos CLaws cylinder y 1%nat)).
    pose proof (Rabs_pos (q 2%nat - pos CLaws cylinder y 2%nat)). nra.
  - intros i Hi. exists 1. split; [lra|]. intros h _. unfold f2. rewrite (basis_mean CLaws) by lia. reflexivity.
Qed.
