(** PencilExamples.v -- C50: concrete spaces that meet the hypotheses. *)
From Coq Require Import Arith List Bool Lia Permutation.
From Verif Require Import Base Fld PencilModel PencilSpec PencilProofs PencilProofs2 PencilProofs3
  PencilProofs4 PencilProofs5 PencilProofs6 PencilProofs7 PencilProperties.
Import ListNotations.
Local Open Scope nat_scope.

(** 3 points (complex to complex) times 4 points (real to complex); made up transforms *)
Definition nsum (n : nat) (f : nat -> nat) : nat := fold_right (fun j s => f j + s) 0 (seq 0 n).
Lemma nsum_ext n f g : (forall j, j < n -> f j = g j) -> nsum n f = nsum n g.
Proof.
  intros H. unfold nsum. assert (Hs : forall j, In j (seq 0 n) -> f j = g j) by (intros j Hj; apply in_seq in Hj; apply H; lia).
  induction (seq 0 n) as [|a l IH]; [reflexivity|]. cbn.
  rewrite Hs by (left; reflexivity). rewrite IH; [reflexivity | intros j Hj; apply Hs; right; exact Hj].
Qed.
Definition exbase (k : kind) (phys spec : nat) (padded : bool) : @base nat :=
  mkBase k phys spec spec
    (fun l i => nsum phys (fun j => (i + j + 1) * l j)) (fun l i => if i <? spec then l i else 0)
    (fun l i => if i <? spec then l i else 0) (fun l i => nsum spec (fun j => (2 * i + j) * l j))
    (fun l i => if i <? spec then l i else 0) padded.
Lemma exbase_ok k phys spec padded : base_ok (exbase k phys spec padded).
Proof.
  unfold base_ok, depends, exbase. cbn [bs_phys bs_mid bs_spec bs_raw bs_trunc bs_cut bs_pad bs_eval].
  repeat split; intros l l' H i.
  - apply nsum_ext. intros j Hj. rewrite H by exact Hj. reflexivity.
  - destruct (Nat.ltb_spec i spec); [apply H; assumption | reflexivity].
  - destruct (Nat.ltb_spec i spec); [apply H; assumption | reflexivity].
  - destruct (Nat.ltb_spec i spec); [apply H; assumption | reflexivity].
  - apply nsum_ext. intros j Hj. rewrite H by exact Hj. reflexivity.
Qed.
Definition exbases : list (@base nat) := [exbase C2C 3 3 false; exbase R2C 4 3 false].
Definition exd : @base nat := exbase C2C 3 3 false.

Example C50_setup : setup [2; 1] exbases exd [0; 1] false.
Proof.
  constructor; try reflexivity; try discriminate.
  intros b [<-|[<-|[]]]; apply exbase_ok.
Qed.
(** without process 2 and with the transforms collapsed where possible *)
Definition exsp : @space nat :=
  match configure [2; 1] exbases exd (groups_of [2; 1] false exbases exd [0; 1]) false with
  | Some sp => sp | None => mkSpace [] [] (mkPencil [] [] 0) (mkPencil [] [] 0) end.
Example C50_configured :
  configure [2; 1] exbases exd (groups_of [2; 1] false exbases exd [0; 1]) false = Some exsp.
Proof. reflexivity. Qed.
Definition exu (idx : list nat) : nat := 10 * nth 0 idx 0 + nth 1 idx 0.
Definition exx : @buf nat :=
  mkBuf (subshape [2; 1] (sp_in exsp)) false
    (fun c idx => exu (global_index [2; 1] (sp_in exsp) c idx)).
Example C50_input : distributed [2; 1] (sp_in exsp) exx exu.
Proof. split; reflexivity. Qed.
(** 2 rows on the first process, 1 row on the second; after the forward transform the columns
    are distributed *)
Example C50_blocks :
  map (subshape [2; 1] (sp_in exsp)) [[0; 0]; [1; 0]] = [[2; 4]; [1; 4]] /\
  map (subshape [2; 1] (sp_out exsp)) [[0; 0]; [1; 0]] = [[3; 2]; [3; 1]].
Proof. split; reflexivity. Qed.
Example C50_result : exists y, forward [2; 1] exsp exx = Some y /\
  b_dat y [1; 0] [2; 0] = tensor line_forward exbases exd [1; 0] exu [2; 2] /\
  b_dat y [1; 0] [2; 0] = 2904.
Proof. eexists. split; [reflexivity|]. split; reflexivity. Qed.

(** the padded space on 2 processes: forward and backward work, the scalar product does not *)
Definition expbases : list (@base nat) := [exbase C2C 5 3 true; exbase R2C 6 3 true].
Definition exsq : @space nat :=
  match configure_backwards [2; 1] expbases exd [0; 1] (sp_out exsp) (output_dtype exsp) with
  | Some sp => sp | None => mkSpace [] [] (mkPencil [] [] 0) (mkPencil [] [] 0) end.
Example C50_padded_configured :
  configure_backwards [2; 1] expbases exd [0; 1] (sp_out exsp) (output_dtype exsp) = Some exsq /\
  p_shape (sp_out exsq) = [5; 6].
Proof. split; reflexivity. Qed.
Example C50_padded_distributed :
  psize [2; 1] (sp_out exsp) 1 = 2 /\ nth 1 (p_shape (sp_out exsp)) 0 = 3.
Proof. split; reflexivity. Qed.
Example C50_padded_fails : forall x, padded_scalar_product [2; 1] exsq x = None.
Proof.
  apply (C50_padded_scalar_product_refuted [2; 1] exbases expbases exd 0 1 false false exsp exsq).
  - exact C50_setup.
  - intros [|[|i]]; cbn; lia.
  - reflexivity.
  - reflexivity.
  - cbn. lia.
  - cbn. lia.
Qed.

(** the 2/3-rule for 6 points on two collapsed axes, without evaluation: mode (2, 0) survives *)
Definition exmask : @base nat :=
  mkBase C2C 6 6 6 (fun l i => if i <? 6 then l i else 0) (fun l i => if i <? 6 then l i else 0)
    (fun l i => if (i <? 6) && negb ((2 <=? i) && (i <? 5)) then l i else 0)
    (fun l i => if i <? 6 then l i else 0) (fun l i => if i <? 6 then l i else 0) false.
Example C50_collapse_dealias_differs : exists sp y,
  configure [1; 1] [exmask; exmask] exmask (groups_of [1; 1] true [exmask; exmask] exmask [0; 1]) true = Some sp /\
  backward [1; 1] sp (mkBuf (subshape [1; 1] (sp_out sp)) true (fun _ _ => 1)) = Some y /\
  b_dat y [0; 0] [2; 0] = 1 /\
  tensor line_backward [exmask; exmask] exmask [0; 1] (fun _ => 1) [2; 0] = 0.
Proof. eexists. eexists. split; [reflexivity|]. split; [reflexivity|]. split; reflexivity. Qed.

(** undoes: reversal of a line of three complex numbers *)
Definition exflip : @base nat :=
  mkBase C2C 3 3 3 (fun l i => if i <? 3 then l (2 - i) else 0) (fun l i => if i <? 3 then l i else 0)
    (fun l i => if i <? 3 then l i else 0) (fun l i => if i <? 3 then l (2 - i) else 0)
    (fun l i => if i <? 3 then l i else 0) false.
Example C50_undoes : undoes (fun _ => True) exflip /\ keeps_real (fun _ => True) exflip /\ base_ok exflip.
Proof.
  split; [|split].
  - intros l _ i Hi. unfold line_backward, line_forward. cbn in *.
    destruct i as [|[|[|i]]]; try reflexivity. lia.
  - discriminate.
  - unfold base_ok, depends. cbn [exflip bs_phys bs_mid bs_spec bs_raw bs_trunc bs_cut bs_pad bs_eval].
    repeat split; intros l l' H i; destruct (Nat.ltb_spec i 3); try reflexivity; apply H; lia.
Qed.

Print Assumptions C50_planned.
Print Assumptions C50_distribution.
Print Assumptions C50_forward.
Print Assumptions C50_scalar_product.
Print Assumptions C50_backward.
Print Assumptions C50_any_grid.
Print Assumptions C50_matrix.
Print Assumptions C50_round_trip.
Print Assumptions C50_round_trip_back.
Print Assumptions C50_padded_backward.
Print Assumptions C50_padded_forward.
Print Assumptions C50_padded_scalar_product_partial.
Print Assumptions C50_padded_scalar_product_refuted.
Print Assumptions C50_padded_pencil_refuted.
Print Assumptions C50_collapse_dealias_refuted.
