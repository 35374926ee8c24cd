(** PencilProofs7.v -- distributed transforms as matrix products; padded spaces. *)
From Coq Require Import Arith List Bool Lia Permutation.
From Verif Require Import Base Fld PencilModel PencilSpec PencilProofs PencilProofs2 PencilProofs3 PencilProofs4 PencilProofs5 PencilProofs6.
Import ListNotations.
Local Open Scope nat_scope.

Section Matrices.
  Variable K : Fld.
  Variables (bases : list (@base K)) (d : @base K).
  Variable F : @base K -> (nat -> K) -> nat -> K.
  Variables (n : nat -> nat) (M : nat -> nat -> nat -> K).

  Lemma tensor_matrix N axes u idx :
    (forall k, k < N -> forall l i, F (nth k bases d) l i = fsum (n k) (fun j => fmul (M k i j) (l j))) ->
    Permutation axes (seq 0 N) -> length idx = N ->
    tensor F bases d axes u idx = matrix_transform (map (fun k => (n k, M k)) (seq 0 N)) u idx.
  Proof.
    intros HF HP Hl.
    set (T := fun k (l : nat -> K) i => fsum (n k) (fun j => fmul (M k i j) (l j))).
    assert (HT : linear K n M T) by (intros k l i; reflexivity).
    assert (HE : forall l, (forall k, In k l -> k < N) -> forall g h : list nat -> K, eqn K N g h ->
              eqn K N (tensor F bases d l g) (ten K T l h)).
    { induction l as [|k l IH]; intros Hk g h Hgh; [exact Hgh|].
      apply IH; [intros q Hq; apply Hk; right; exact Hq|].
      intros id Hid. unfold along. rewrite HF by (apply Hk; left; reflexivity).
      unfold T. apply gsum_ext. intros j _. f_equal. apply Hgh. rewrite lset_length. exact Hid. }
    rewrite (HE axes) with (h := u); [| |intros id Hid; reflexivity | exact Hl].
    - rewrite (ten_perm K n M T HT N axes (rev (seq 0 N))).
      + apply ten_matrix; assumption.
      + eapply Permutation_trans; [exact HP | apply Permutation_rev].
      + apply (Permutation_NoDup (Permutation_sym HP)), seq_NoDup.
      + exact Hl.
    - intros k Hk. apply (Permutation_in _ HP) in Hk. apply in_seq in Hk. lia.
  Qed.
End Matrices.

Section Padded.
  Context {V : Type}.
  Variables (dims : list nat) (pbases : list (@base V)) (d : @base V).

  Lemma chain_shape_in ss ts gs P E : chain dims pbases d ss ts gs P E -> NoDup (concat gs) ->
    forall k, In k (concat gs) -> nth k (p_shape P) 0 = bs_phys (nth k pbases d).
  Proof.
    induction 1 as [s g P S H | s s' ss t ts g gs P S P' E H H0 IH H1 H2 H3]; intros HN k Hk.
    - cbn [concat] in Hk. rewrite app_nil_r in Hk. apply H. exact Hk.
    - cbn [concat] in Hk, HN. apply in_app_or in Hk. destruct (NoDup_app_inv _ _ HN) as (N1 & N2 & N3).
      destruct Hk as [Hk|Hk]; [apply H; exact Hk|].
      specialize (IH N2 k Hk). assert (ES : p_shape S = p_shape P') by apply H1.
      rewrite <- ES in IH. destruct H as (HP & Hg & _ & -> & _).
      cbn [pset p_shape] in IH. rewrite nth_lset_other in IH; [exact IH|].
      intros ->. apply (N3 (last g 0)); [apply last_in; exact Hg | exact Hk].
  Qed.

  Lemma configure_backwards_shape axes p dt sp : pwf dims p -> length pbases = length dims ->
    Permutation axes (seq 0 (length dims)) ->
    (forall k, In k axes -> k < length dims /\ base_ok (nth k pbases d)) ->
    configure_backwards dims pbases d axes p dt = Some sp -> pwf dims (sp_out sp) /\ p_shape (sp_out sp) = map bs_phys pbases.
  Proof.
    intros Hp Hl HP Hk E.
    assert (HN : NoDup axes) by (apply (Permutation_NoDup (Permutation_sym HP)), seq_NoDup).
    destruct (configure_backwards_chain dims pbases d axes p dt sp Hp HN Hk E) as (s & rest & k & _ & _ & _ & HC).
    destruct (chain_pwf dims pbases d _ _ _ _ _ HC) as [PW _]. split; [exact PW|].
    assert (EC : concat (rev (map (fun k => [k]) axes)) = rev axes).
    { rewrite <- map_rev. induction (rev axes) as [|a l IH]; [reflexivity|]. cbn. f_equal. exact IH. }
    pose proof (chain_shape_in _ _ _ _ _ HC) as Q. rewrite EC in Q. specialize (Q (NoDup_rev HN)).
    pose proof PW as (W1 & W2 & _). apply list_ext; [rewrite map_length; lia|].
    intros i Hi. rewrite W2 in Hi. rewrite Q.
    - rewrite <- (map_nth bs_phys). apply nth_indep. rewrite map_length. lia.
    - apply -> in_rev. apply (Permutation_in _ (Permutation_sym HP)). apply in_seq. lia.
  Qed.

  (** reversed redistributions called in the wrong direction *)
  Lemma padded_scalar_fails k0 k1 p dt sp : (forall i, i < length dims -> 1 <= nth i dims 1) ->
    pwf dims p -> k0 < length dims -> k1 < length dims -> k0 <> k1 ->
    configure_backwards dims pbases d [k0; k1] p dt = Some sp ->
    2 <= psize dims p k1 -> psize dims p k1 <= nth k1 (p_shape p) 0 ->
    forall x, padded_scalar_product dims sp x = None.
  Proof.
    intros Hpos Hp K0 K1 Kn E H2 Hle x. unfold configure_backwards in E.
    destruct (plan_back dims k0 (nth k0 pbases d) p dt) as [s0|] eqn:E0; [|discriminate].
    destruct (mk_pencil dims (p_sub p) (lset (p_shape p) k0 (bs_phys (nth k0 pbases d))) k0) as [pA|] eqn:EA; [|discriminate].
    cbn [plan_back_rest] in E.
    destruct (pencil_to dims pA k1) as [pB|] eqn:EB; [|discriminate].
    destruct (mk_transfer pA pB (s_pdt s0)) as [t|] eqn:ET; [|discriminate].
    destruct (plan_back dims k1 (nth k1 pbases d) pB (s_pdt s0)) as [s1|] eqn:E1; [|discriminate].
    match type of E with match match ?e with _ => _ end with _ => _ end = _ => destruct e as [pE|]; [|discriminate] end.
    injection E as <-. unfold padded_scalar_product, padded_forward_with. cbn [sp_stages sp_transfers rev app].
    destruct (load _ _ _ _) as [x'|]; [|reflexivity]. cbn [run_forward].
    apply mk_pencil_some in EA. destruct EA as (EA & A1 & A2 & A3).
    pose proof Hp as (P1 & P2 & P3 & P4 & P5 & P6).
    assert (HpA : pwf dims pA).
    { rewrite EA. unfold pwf. cbn [p_sub p_shape p_axis]. rewrite lset_length. rewrite lset_length in A1.
      rewrite EA in A2. repeat split; auto. }
    assert (Hax : p_axis pA = k0) by (rewrite EA; reflexivity).
    destruct (pencil_to_swapped dims pA k1 pB HpA ltac:(rewrite Hax; exact Kn) EB) as (Hsw & HBax & _).
    unfold mk_transfer in ET. destruct (p_axis pA =? p_axis pB); [discriminate|]. injection ET as <-.
    assert (HW : same_shapes dims (subshape dims pB) (subshape dims pA) = false).
    { apply wrong_direction; [exact Hpos | exact Hsw | |]; rewrite HBax, EA.
      - exact H2.
      - cbn [p_shape]. rewrite nth_lset_other by congruence. exact Hle. }
    unfold transfer_forward at 1. cbn [t_A t_B b_shape].
    apply plan_back_some in E1. destruct E1 as [-> _]. cbn [s_sshape]. rewrite HW. reflexivity.
  Qed.
End Padded.
