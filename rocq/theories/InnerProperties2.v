(** InnerProperties2.v -- C49: where inner() does not assemble the discrete inner product. *)
From Coq Require Import Reals ZArith List Bool Arith Lia Lra String.
From Verif Require Import Base FormsModel FormsSpec FormsProofs FormsProofs2 FormsProofs3 FormsWitness InnerModel InnerSpec InnerProofs InnerProofs2 InnerProofs3 InnerProofs4 InnerProofs5 InnerProofs6 InnerWitness InnerProperties.
Import ListNotations.
Local Open Scope R_scope.
Local Notation length := List.length.
Local Notation rsum := FormsSpec.rsum.

(** ** What fails *)
Definition phi1 (_ : space) (_ _ : nat) (_ : R) : R := 1.
Definition rule1 (_ : space) : rule := [(2, 1)].
Definition scal (dim : nat) : expr ASym := basis_expr dim 1 0.
Definition coordsx (sg : ast) : coords ASym :=
  @mkCoords ASym false true false (fun _ => AInt 1) sg (fun i j => AInt (if Nat.eqb i j then 1 else 0))
           (fun i j => AInt (if Nat.eqb i j then 1 else 0)) (fun _ _ _ => AInt 0).
Definition gdelta (i j : nat) : ast := AInt (if Nat.eqb i j then 1 else 0).
Local Transparent mean_comp.
Ltac run1 := lazy -[IZR Rmult Rplus Req_EM_T Rdiv].

(** Coordinates with other names than x, y, z, r, s: the measure is not found in the dictionary, and is dropped. *)
Definition splitT (a : ast) : option (list (dict ASym)) :=
  match a with
  | AInt z => Some [dictA (IZR z) []]
  | AVar O => Some [dictA 1 [("t"%string, AVar 0)]]
  | _ => None
  end.
Theorem C49_names_refuted :
  split_law ALaws mvalA 1 ["t"%string] splitT /\ ip_law (S := ASym) phi1 rule1 mvalA (ipQ phi1 rule1) /\
  exists A, inner_bilinear (S := ASym) splitT (ipQ phi1 rule1) (fun _ => None) (coordsx (AVar 0)) gdelta 0 (fun _ _ => 2%nat) (fun _ _ => 2%nat)
      (scal 1) (scal 1) = Some A /\
    grid_ok ALaws rule1 (coordsx (AVar 0)) gdelta 1 (fun _ _ => 2%nat) 0 (scal 1) (scal 1) /\
    entry 1 A 0 0 (fun _ => 0%nat) (fun _ => (2%nat, 0%nat)) = 1 /\
    form phi1 rule1 (fun _ _ => 2%nat) 1 (ev ALaws (co_sg (coordsx (AVar 0))))
      (contraction ALaws 0 1 (fun i j => ev ALaws (gdelta i j)) (scal 1) (scal 1)) 0 0 (fun _ => 0%nat) (fun _ => (2%nat, 0%nat)) = 2.
Proof.
  split.
  { split; [reflexivity|]. intros d items x H _. destruct d as [z|[|i]| | | | | |]; try discriminate; injection H as <-.
    - cbn. ring.
    - cbn. ring. }
  split; [apply ipQ_law|].
  eexists. split; [run; nonzero; reflexivity|]. split.
  { intros x _. repeat split; try (intros c [<-|[]] t [<-|[]]; exact I); intros; exact I. }
  split; run1; lra.
Qed.
Print Assumptions C49_names_refuted.

(** Expressions of rank 2 in a scalar space, such as grad(grad(v)): the metric is indexed with the number of the
    component, and no matrix is ever returned. *)
Theorem C49_hessian_refuted : forall (S : Sym) split ip bcspace (co : coords S) gij tsp usp (test trial : expr S),
  wf test -> wf trial -> expr_rank test = Some 2%nat -> expr_rank trial = Some 2%nat ->
  inner_bilinear split ip bcspace co gij 0 tsp usp test trial = None.
Proof.
  intros S split ip bcspace co gij tsp usp test trial Hwt Hwu Hrt Hru.
  unfold inner_bilinear. rewrite Hrt. cbn [obind Nat.eqb orb]. unfold inner_mats. rewrite Hrt, Hru. cbn [obind Nat.eqb negb].
  destruct (rank2_num _ Hwt Hrt) as [N1 D1]. destruct (rank2_num _ Hwu Hru) as [N2 D2].
  apply concat_opt_none. apply in_flat_map. exists (e_dim test). split; [apply in_seq; nia|].
  apply in_map_iff. exists 0%nat. split; [|apply in_seq; nia].
  unfold comps_mats, metric. destruct (Nat.eqb_spec (num_components test) 1); [nia|]. rewrite Nat.leb_refl. reflexivity.
Qed.
Print Assumptions C49_hessian_refuted.
Lemma wfb_wf (e : expr ASym) : forallb (fun c => forallb (fun t => Nat.eqb (length (t_der t)) (e_dim e)) c) (e_comps e) = true -> wf e.
Proof.
  intros H c Hc t Ht. rewrite forallb_forall in H. specialize (H c Hc). rewrite forallb_forall in H. now apply Nat.eqb_eq, H.
Qed.
Example C49_hessian_example : exists g h, grad cartA (scal 2) = Some g /\ grad cartA g = Some h /\ expr_rank h = Some 2%nat /\ wf h.
Proof.
  eexists. eexists. split; [vm_compute; reflexivity|]. split; [vm_compute; reflexivity|]. split; [vm_compute; reflexivity|].
  apply wfb_wf. vm_compute. reflexivity.
Qed.

(** Three dimensions: with two inhomogeneous axes the boundary matrices have two factors only; with three there are
    none.  The form with a boundary function is 1 and no matrix of the list contributes to it. *)
Definition sp2of3 (_ i : nat) : space := match i with 2%nat => 2%nat | _ => 0%nat end.
Definition col2 (i : nat) : space * nat := match i with O => (0, 0) | 1%nat => (1, 0) | _ => (2, 0) end%nat.
Definition sp3of3 (_ i : nat) : space := 0%nat.
Definition col3 (i : nat) : space * nat := match i with O => (1, 0) | _ => (0, 0) end%nat.
Theorem C49_boundary_3d_refuted :
  (exists A, inner_bilinear (S := ASym) (splitD 3) (ipQ phi1 rule1) bc01 cartA gdelta 0 sp2of3 sp2of3 (scal 3) (scal 3) = Some A /\
    column bc01 3 (sp2of3 0) col2 /\ map (fun m => length (p_mats m)) A = [3; 2; 2; 3]%nat /\
    entry 3 A 0 0 (fun _ => 0%nat) col2 = 0 /\
    form phi1 rule1 sp2of3 3 (ev ALaws (co_sg cartA)) (contraction ALaws 0 3 (fun i j => ev ALaws (gdelta i j)) (scal 3) (scal 3)) 0 0 (fun _ => 0%nat) col2 = 1) /\
  (exists A, inner_bilinear (S := ASym) (splitD 3) (ipQ phi1 rule1) bc01 cartA gdelta 0 sp3of3 sp3of3 (scal 3) (scal 3) = Some A /\
    column bc01 3 (sp3of3 0) col3 /\ length A = 1%nat /\
    entry 3 A 0 0 (fun _ => 0%nat) col3 = 0 /\
    form phi1 rule1 sp3of3 3 (ev ALaws (co_sg cartA)) (contraction ALaws 0 3 (fun i j => ev ALaws (gdelta i j)) (scal 3) (scal 3)) 0 0 (fun _ => 0%nat) col3 = 1).
Proof.
  split.
  - eexists. split; [run; nonzero; reflexivity|]. split.
    { intros [|[|[|i]]] Hi; try lia; cbn; auto. }
    split; [reflexivity|]. split; run1; lra.
  - eexists. split; [run; nonzero; reflexivity|]. split.
    { intros [|[|[|i]]] Hi; try lia; cbn; auto. }
    split; [reflexivity|]. split; run1; lra.
Qed.
Print Assumptions C49_boundary_3d_refuted.

(** An interior matrix without diagonals: the term is skipped together with its boundary matrix.  One Dirichlet basis
    function 1 - y^2, its derivative -2y, the boundary function (1 + y)/2, Simpson's rule: inner(v, Dx(u)). *)
Definition phiD (s : space) (_ a : nat) (y : R) : R :=
  match s, a with
  | O, O => 1 - y * y | O, 1%nat => - 2 * y | O, 2%nat => - 2
  | 1%nat, O => (1 + y) / 2 | 1%nat, 1%nat => 1 / 2
  | _, _ => 0
  end.
Definition simpson (_ : space) : rule := [(-1, 1 / 3); (0, 4 / 3); (1, 1 / 3)].
Definition ipE (tt : space) (a : nat) (ts : space) (b : nat) (ms : ast) : option mat :=
  match tt, a, ts, b, ms with
  | O, O, O, 1%nat, AInt _ => None
  | _, _, _, _, _ => ipQ phiD simpson tt a ts b ms
  end.
Lemma ipE_law : ip_law (S := ASym) phiD simpson mvalA ipE.
Proof.
  intros tt a ts b ms. unfold ipE.
  destruct tt as [|tt]; [|cbn; split; reflexivity]. destruct a as [|a]; [|cbn; split; reflexivity].
  destruct ts as [|ts]; [|cbn; split; reflexivity]. destruct b as [|[|b]]; try (cbn; split; reflexivity).
  destruct ms; try (cbn; split; reflexivity).
  intros k l. unfold product1, mvalA, simpson, lsum. cbn [fold_right fst snd phiD aev]. field.
Qed.
Definition derx : expr ASym := mkExpr 1 [[@mkTerm ASym [1%nat] (AInt 1) 0]].
Theorem C49_empty_refuted : ip_law (S := ASym) phiD simpson mvalA ipE /\
  dx cartA (scal 1) 0 1 = Some derx /\
  inner_bilinear (S := ASym) (splitD 1) ipE bc01 cartA gdelta 0 (fun _ _ => 0%nat) (fun _ _ => 0%nat) (scal 1) derx = Some [] /\
  form phiD simpson (fun _ _ => 0%nat) 1 (ev ALaws (co_sg cartA)) (contraction ALaws 0 1 (fun i j => ev ALaws (gdelta i j)) (scal 1) derx)
     0 0 (fun _ => 0%nat) (fun _ => (1%nat, 0%nat)) = 2 / 3.
Proof.
  split; [exact ipE_law|]. split; [reflexivity|]. split; [run; reflexivity|]. run1. field.
Qed.
Print Assumptions C49_empty_refuted.

(** The linear form of a vector test function: component p of the test expression is written to component p of the
    output, whatever test functions it contains.  inner(grad(div(v)), u): all derivatives of the basis functions are 1,
    u = (1, 0); the second component of the output is 0, the form is 1. *)
Definition phiE (_ : space) (_ _ : nat) (y : R) : R := exp y.
Definition rule0 (_ : space) : rule := [(0, 1)].
Definition graddiv : expr ASym :=
  match div cartA vec2 with Some d => match grad cartA d with Some g => g | None => d end | None => vec2 end.
Theorem C49_linear_components_refuted :
  (exists d, div cartA vec2 = Some d /\ grad cartA d = Some graddiv) /\ expr_rank graddiv = Some 1%nat /\
  inner_linear (S := ASym) (splitD 2) (ipQ phiE rule0) (fun _ => None) cartA gdelta 1 (fun _ _ => 2%nat) (fun _ _ => 2%nat) graddiv vec2 1
    (fun _ => 0%nat) (fun _ => 1%nat) (fun c _ => match c with O => 1 | _ => 0 end) = Some 0 /\
  gridsum 0 2 (fun _ => rule0 2%nat) (fun x => ev ALaws (co_sg cartA) x *
     contraction ALaws 1 2 (fun i j => ev ALaws (gdelta i j)) graddiv vec2 (basis phiE 2 (fun _ => 2%nat) 1 (fun _ => 0%nat))
        (expansion phiE (fun _ => None) 2 (fun _ _ => 2%nat) (fun _ => 1%nat) (fun c _ => match c with O => 1 | _ => 0 end)) x) origin = 1.
Proof.
  split; [eexists; split; vm_compute; reflexivity|]. split; [vm_compute; reflexivity|]. split.
  - lazy -[IZR Rmult Rplus Req_EM_T Rdiv product1 exp]. repeat nonzero. lazy -[IZR Rmult Rplus Rdiv product1 exp]. f_equal. ring.
  - lazy -[IZR Rmult Rplus Rdiv exp]. rewrite exp_0. ring.
Qed.
Print Assumptions C49_linear_components_refuted.
