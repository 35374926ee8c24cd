(** StencilProofs4.v -- the ultraspherical stencils. *)
From Coq Require Import Reals Lra Lia ZArith String List Arith.
From Verif Require Import Base Fld SparseModel SparseSpec RPoly StencilModel StencilSpec StencilProofs.
Import ListNotations.
Local Open Scope R_scope.

Section Ultra.
Variables (G : R -> R) (a : R).
Hypothesis HG : forall x, 0 < x -> 0 < G x.
Hypothesis Ha : -1 < a.

Lemma pow4 : Rpower 4 a = Rpower 2 (2 * a).
Proof. replace 4 with (Rpower 2 2). - rewrite Rpower_mult. f_equal. - replace 2 with (INR 2) at 2 by (simpl; lra). rewrite Rpower_pow by lra. simpl. lra. Qed.
Lemma pow1 : Rpower 2 (1 - 2 * a) = 2 / Rpower 2 (2 * a).
Proof. unfold Rminus. rewrite Rpower_plus, Rpower_1, Rpower_Ropp by lra. reflexivity. Qed.

Ltac gpos := solve [lra | apply exp_pos | apply HG; lra
  | match goal with
    | |- 0 < _ * _ => apply Rmult_lt_0_compat; gpos
    | |- 0 < _ ^ _ => apply pow_lt; gpos
    | |- 0 < Rpower _ _ => apply exp_pos
    end ].
Ltac ultra :=
  unf; apply bcs_ok_intro; [nodup | nodup | ];
  let k := fresh "k" in intros k;
  let x := fresh "x" in let Hx := fresh "Hx" in pose proof (pos_INR k) as Hx;
  let z := fresh "z" in
  cbn [sc_bcs];
  repeat (apply Forall_cons; [ stencil_values (fun n k => ultraQ_right a n k Ha) (fun n k => ultraQ_left a n k Ha) k;
     set (x := INR k) in *; try set (z := (-1) ^ k); clearbody x; try clearbody z;
     rewrite ?pow4, ?pow1; cbn [pow]; unfold vQ; field; repeat split; try (apply Rgt_not_eq, Rlt_gt; gpos) | ]); try apply Forall_nil.

Lemma ultra_neumann : bcs_ok (ultraQ a) (ultraspherical_CompactNeumann a).
Proof.
  ultra.
  all: replace (2 * a * x + 4 * a + x * x + 5 * x + 6) with ((x + 2) * (x + 2 * a + 3)) by ring; apply Rgt_not_eq, Rlt_gt; gpos.
Qed.
Lemma ultraspherical_ok : Forall (bcs_ok (ultraQ a)) (ultraspherical_classes G a).
Proof.
  unfold ultraspherical_classes.
  repeat (apply Forall_cons; [ first [apply ultra_neumann | time ultra] |]). apply Forall_nil.
Qed.
Lemma ultraspherical_lower_ok : bcs_ok (ultraQ a) (with_bcs (ultraspherical_LowerDirichlet a) [mkBc Left 0]).
Proof.
  cbv [with_bcs ultraspherical_LowerDirichlet sc_name sc_stencil]. ultra.
Qed.
End Ultra.
