(** StencilProofs9.v -- every stencil starts with a non-zero main diagonal. *)
From Coq Require Import Reals Lra Lia ZArith String List Arith.
From Verif Require Import Base Fld SparseModel SparseSpec RPoly StencilModel StencilModel2 StencilSpec StencilProofs StencilProofs7 StencilProofs8.
Import ListNotations.
Local Open Scope R_scope.

Definition good_head (cls : stencil_class) : Prop :=
  NoDup (map fst (sc_stencil cls)) /\ Forall (fun it => (fst it <= length (sc_bcs cls))%nat) (sc_stencil cls) /\
  match sc_stencil cls with (O, s) :: _ => forall k, sval s (INR k) <> 0 | _ => False end.
Lemma good_independent cls : good_head cls -> forall N u,
  (forall j, (j < N)%nat -> gsum 0 Rplus (N - length (sc_bcs cls)) (fun k => u k * mat_entry RFld (stencil_matrix cls N) k j) = 0) ->
  forall k, (k < N - length (sc_bcs cls))%nat -> u k = 0.
Proof.
  intros [Hn [_ Hh]] N u. apply independent; auto. intros k.
  destruct (sc_stencil cls) as [|[[|o] s] r]; [easy| |easy].
  cbn [row_value]. rewrite Nat.add_0_r, Nat.eqb_refl. apply Hh.
Qed.

Ltac head_ne gpos :=
  match goal with |- good_head ?c => let h := eval hnf in c in change c with h end;
  split; [nodup|split; [nodup|]]; cbn [sc_stencil];
  let k := fresh "k" in intros k; pose proof (pos_INR k); pose proof PI_RGT_0; cbn [sval];
  apply Rgt_not_eq, Rlt_gt; gpos.
Ltac each gpos := repeat (apply Forall_cons; [head_ne gpos|]); apply Forall_nil.
Ltac pos0 := solve [pos].
Lemma chebyshev_heads : Forall good_head chebyshev_classes.
Proof. unfold chebyshev_classes. each pos0. Qed.
Lemma legendre_heads : Forall good_head legendre_classes.
Proof. unfold legendre_classes. each pos0. Qed.
Lemma chebyshevu_heads : Forall good_head chebyshevu_classes.
Proof. unfold chebyshevu_classes. each pos0. Qed.
Lemma laguerre_heads : Forall good_head laguerre_classes.
Proof. unfold laguerre_classes. each pos0. Qed.
Section G.
Variables (G : R -> R) (a b : R).
Hypothesis HG : forall x, 0 < x -> 0 < G x.
Hypothesis Ha : -1 < a.
Hypothesis Hb : -1 < b.
Ltac gpos := solve [lra | apply exp_pos | apply HG; lra
  | match goal with
    | |- 0 < _ * _ => apply Rmult_lt_0_compat; gpos
    | |- 0 < _ / _ => apply Rdiv_lt_0_compat; gpos
    | |- 0 < _ ^ _ => apply pow_lt; gpos
    | |- 0 < Rpower _ _ => apply exp_pos
    end ].
Lemma ultraspherical_heads : Forall good_head (ultraspherical_classes G a).
Proof. unfold ultraspherical_classes. each gpos. Qed.
Lemma jacobi_heads : Forall good_head (jacobi_classes G a b).
Proof. unfold jacobi_classes. each gpos. Qed.
Lemma jacobi_ne_heads : Forall good_head (jacobi_ne_classes G a b).
Proof. unfold jacobi_ne_classes. each gpos. Qed.
End G.
