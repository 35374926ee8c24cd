(** CheckpointProperties.v -- C48: Checkpoint keeps an intact checkpoint at every
    crash point, whatever the schedule of the ranks, and a restart on any number
    of ranks reads back what was stored. *)
From Coq Require Import Arith Lia List ZArith Bool String.
From Verif Require Import Base CheckpointModel CheckpointSpec CheckpointProofs.
Import ListNotations.

Section Theorems.
Variables (V T : Type) (vzero : V) (tzero : T).

(** After every history of calls, crashes and restarts, the main file holds the
    last checkpoint that was completed. *)
Theorem C48_saved : forall every last h d,
  reach V T vzero tzero every (Some last) h d -> holds V T last (main _ _ d).
Proof. intros every last h d H. now apply (reach_inv _ _ _ _ _ _ _ _ H). Qed.

(** Wherever the next call is interrupted, one of the two files still holds the
    last completed checkpoint. *)
Theorem C48_crash_safe : forall every last h d c d',
  reach V T vzero tzero every (Some last) h d ->
  interrupted V T vzero tzero every h d c d' ->
  holds V T last (main _ _ d') \/ holds V T last (old _ _ d').
Proof.
  intros every last h d c d' H Hi.
  pose proof (reach_inv _ _ _ _ _ _ _ _ H) as Hinv.
  destruct (proj2 Hinv last eq_refl) as [-> _].
  eapply interrupted_safe; eauto.
Qed.

(** Reading on another number of ranks, with another distribution. *)
Theorem C48_read : forall every last h d e u P' own' r' uloc,
  reach V T vzero tzero every (Some last) h d ->
  In e (c_data _ _ last) -> e_val _ e = [u] -> r' < P' ->
  exists b, read V T d (e_name _ e) (e_step _ e) (own' r') uloc = Some b /\
    forall i r, i < a_size _ u -> own' r' i = true ->
      r < c_ranks _ _ last -> a_own _ u r i = true -> b i = a_loc _ u r i.
Proof.
  intros every last h d e u P' own' r' uloc H He Hu Hr'.
  destruct (C48_saved _ _ _ _ H) as [f [Ef [_ [_ Hf]]]].
  destruct (Hf e u He Hu) as [a [Ea Hg]].
  unfold read. rewrite Ef, Ea. eexists. split; [reflexivity|].
  intros i r Hi Ho Hr Hown. cbn. rewrite Ho. now apply Hg.
Qed.

(** The stop file is honoured as soon as one rank sees it, and the decision is
    common to all ranks; a checkpoint is then written whatever the step. *)
Theorem C48_kill : forall every (c : call V T),
  (check_if_kill (c_ranks _ _ c) (c_found _ _ c) = true <->
   exists r, r < c_ranks _ _ c /\ c_found _ _ c r = true) /\
  (call_saves V T every c = true <->
   (c_tstep _ _ c mod every = 0)%Z \/ exists r, r < c_ranks _ _ c /\ c_found _ _ c r = true).
Proof.
  intros every c.
  assert (K : check_if_kill (c_ranks _ _ c) (c_found _ _ c) = true <->
   exists r, r < c_ranks _ _ c /\ c_found _ _ c r = true).
  { unfold check_if_kill. rewrite Nat.ltb_lt.
    generalize (c_ranks _ _ c) as n. intros n.
    assert (S1 : forall n, gsum 0 Nat.add (S n) (fun r => if c_found V T c r then 1 else 0)
        = gsum 0 Nat.add n (fun r => if c_found V T c r then 1 else 0)
          + (if c_found V T c n then 1 else 0)) by (intros m; cbn; lia).
    induction n as [|n IH].
    - split; [cbn; lia|]. intros [r [H _]]. lia.
    - rewrite S1. split.
      + intros H. destruct (c_found V T c n) eqn:E.
        * exists n. split; [lia|exact E].
        * destruct (proj1 IH) as [r [Hr Er]]; [lia|]. exists r. split; [lia|exact Er].
      + intros [r [Hr Er]]. destruct (Nat.eq_dec r n) as [->|N].
        * rewrite Er. lia.
        * assert (0 < gsum 0 Nat.add n (fun r => if c_found V T c r then 1 else 0)); [|lia].
          apply IH. exists r. split; [lia|exact Er]. }
  split; [exact K|].
  unfold call_saves, saves. rewrite orb_true_iff, Z.eqb_eq, K. reflexivity.
Qed.

(** Between checkpoints the disk is not touched. *)
Theorem C48_between : forall every last d c ws,
  reach V T vzero tzero every (Some last) true d ->
  call_saves V T every c = false ->
  exec_all V T vzero tzero (call_ops V T tzero true every c ws) d = d.
Proof.
  intros every last d c ws _ H. unfold call_ops, update_ops. unfold call_saves in H.
  rewrite H. reflexivity.
Qed.
End Theorems.

(** ** A concrete history, two ranks, two arrays (one at two time levels) *)
Definition halves : nat -> nat -> bool := fun r i => if Nat.ltb i 2 then Nat.eqb r 0 else Nat.eqb r 1.
Definition arr_of (v : Z) : arr Z := Arr Z 4 halves (fun _ i => (v + Z.of_nat i)%Z).
Definition ex_data (v : Z) : list (entry Z) :=
  [Entry Z 0 "U" [arr_of v]; Entry Z 0 "phi" [arr_of (v + 100)%Z]; Entry Z 1 "U" [arr_of (v - 1)%Z]].
Definition ex_call (n v : Z) : call Z Z := Call Z Z 2 (ex_data v) (n * 10)%Z n (fun _ => false).

(** Rank 1 first, then rank 0. *)
Definition ex_ws (v : Z) : list (op Z Z) :=
  rank_ops Z Z (ex_data v) 1 ++ rank_ops Z Z (ex_data v) 0.

Lemma halves_distributed v : distributed Z 2 (arr_of v).
Proof.
  intros i Hi. cbn in *. unfold halves.
  destruct (Nat.ltb_spec i 2).
  - exists 0. split; [lia|]. split; [reflexivity|]. intros [|[|r]] H1 H2; cbn in *; lia || discriminate.
  - exists 1. split; [lia|]. split; [reflexivity|]. intros [|[|r]] H1 H2; cbn in *; lia || discriminate.
Qed.

Lemma ex_good v : good_data Z 2 (ex_data v).
Proof.
  split; [lia|]. split.
  - repeat constructor; cbn; intuition discriminate.
  - intros e [<-|[<-|[<-|[]]]]; eexists; (split; [reflexivity|apply halves_distributed]).
Qed.

Ltac sched := match goal with
  | |- interleaving _ _ _ _ (?o :: _) =>
     first [ eapply (il_step _ _ _ _ 1); [lia|reflexivity|]
           | eapply (il_step _ _ _ _ 0); [lia|reflexivity|] ]
  | |- interleaving _ _ _ _ [] => apply il_done; intros [|[|r]] H; [reflexivity|reflexivity|lia]
  end.

Lemma ex_schedule n v : schedule Z Z (ex_call n v) (ex_ws v).
Proof. unfold schedule, ex_ws. cbn. repeat sched. Qed.

Definition d_init : disk Z Z := Disk _ _ (Absent _ _) (Absent _ _).
Definition d_ten : disk Z Z :=
  exec_all Z Z 0%Z 0%Z (call_ops Z Z 0%Z false 10%Z (ex_call 10%Z 5%Z) (ex_ws 5%Z)) d_init.

Lemma ex_reach : reach Z Z 0%Z 0%Z 10%Z (Some (ex_call 10%Z 5%Z)) true d_ten.
Proof.
  exact (reach_update Z Z 0%Z 0%Z 10%Z None false d_init (ex_call 10%Z 5%Z) (ex_ws 5%Z)
           (reach_new _ _ _ _ _ _) (ex_good 5%Z) (ex_schedule 10%Z 5%Z)).
Qed.


Definition f_ten : file Z Z :=
  set_t Z Z (set_tstep Z Z (io_all Z Z 0%Z (ex_ws 5%Z) (created Z Z 0%Z)) 10%Z) 100%Z.

Lemma ex_io v : Forall (is_io Z Z) (ex_ws v).
Proof. exact (schedule_io _ _ _ _ (ex_schedule 0 v)). Qed.

Lemma d_ten_eq : d_ten = Disk _ _ (Closed _ _ f_ten) (Closed _ _ (created Z Z 0%Z)).
Proof.
  unfold d_ten. rewrite first_update, main_closed_prefix;
    [reflexivity|reflexivity|cbn; eauto|apply ex_io].
Qed.

(** Step 20 is interrupted after [3 + k] effects; the old file is intact, and
    [m] is what remains of the main one. *)
Lemma ex_interrupted k m : k <= 12 ->
  interrupted Z Z 0%Z 0%Z 10%Z true d_ten (ex_call 20%Z 7%Z) (Disk _ _ m (Closed _ _ f_ten)).
Proof.
  intros Hk. exists (ex_ws 7%Z), (3 + k). split; [apply (ex_schedule 20%Z 7%Z)|].
  rewrite d_ten_eq, prefix_state; [|reflexivity|apply ex_io|exact Hk].
  split; [exact I|reflexivity].
Qed.

Example C48_example : exists d',
  interrupted Z Z 0%Z 0%Z 10%Z true d_ten (ex_call 20%Z 7%Z) d' /\
  ~ holds Z Z (ex_call 10%Z 5%Z) (main _ _ d') /\ holds Z Z (ex_call 10%Z 5%Z) (old _ _ d').
Proof.
  pose proof (ex_interrupted 4 (Absent _ _) ltac:(lia)) as Hi.
  eexists. split; [exact Hi|].
  assert (Hn : ~ holds Z Z (ex_call 10%Z 5%Z) (main _ _ (Disk Z Z (Absent _ _) (Closed _ _ f_ten)))).
  { intros [f [E _]]. discriminate. }
  split; [exact Hn|].
  destruct (C48_crash_safe _ _ _ _ _ _ _ _ _ _ ex_reach Hi) as [H|H]; [contradiction|exact H].
Qed.

(** ** What does not hold *)

(** The main file alone is not safe: a crash can leave it readable, with the
    step number of the last checkpoint and some arrays of the next one. *)
Definition f_torn : file Z Z := io_all Z Z 0%Z (firstn 8 (ex_ws 7%Z)) f_ten.

Theorem C48_main_alone_refuted : exists every last h d c d' f a,
  reach Z Z 0%Z 0%Z every (Some last) h d /\
  interrupted Z Z 0%Z 0%Z every h d c d' /\
  main _ _ d' = Closed _ _ f /\
  f_tstep _ _ f = c_tstep _ _ last /\ f_t _ _ f = c_t _ _ last /\
  f_data _ _ f "U" 0 = Some a /\ (forall i, i < 4 -> a i = (7 + Z.of_nat i)%Z) /\
  ~ holds Z Z last (main _ _ d') /\ ~ holds Z Z c (main _ _ d').
Proof.
  pose proof (ex_interrupted 8 (Closed _ _ f_torn) ltac:(lia)) as Hi.
  assert (Ha : exists a, f_data _ _ f_torn "U" 0 = Some a /\ forall i, i < 4 -> a i = (7 + Z.of_nat i)%Z).
  { eexists. split; [cbn; reflexivity|].
    intros [|[|[|[|i]]]] H; first [reflexivity|lia]. }
  destruct Ha as [a [Ea Hav]].
  exists 10%Z, (ex_call 10%Z 5%Z), true, d_ten, (ex_call 20%Z 7%Z), (Disk _ _ (Closed _ _ f_torn) (Closed _ _ f_ten)), f_torn, a.
  split; [exact ex_reach|]. split; [exact Hi|]. split; [reflexivity|].
  split; [reflexivity|]. split; [reflexivity|]. split; [exact Ea|]. split; [exact Hav|]. split.
  - intros [g [Eg [_ [_ Hg]]]]. cbn [main] in Eg.
    assert (g = f_torn) as -> by congruence.
    destruct (Hg (Entry Z 0 "U" [arr_of 5%Z]) (arr_of 5%Z)) as [b [Eb Hb]]; [now left|reflexivity|].
    cbn [e_name e_step] in Eb. rewrite Ea in Eb. injection Eb as <-.
    specialize (Hb 0 0 ltac:(cbn; lia) ltac:(cbn; lia) eq_refl).
    rewrite Hav in Hb by lia. cbn in Hb. discriminate.
  - intros [g [Eg [Et _]]]. cbn [main] in Eg.
    assert (g = f_torn) as -> by congruence. cbn in Et. discriminate.
Qed.

(** A new Checkpoint object with the same file name that was not used to read
    first opens the main file with mode 'w' and then copies it over the old one:
    a crash of its first checkpoint loses everything. *)
Theorem C48_new_object_refuted : exists every last d c d',
  reach Z Z 0%Z 0%Z every (Some last) true d /\
  interrupted Z Z 0%Z 0%Z every false d c d' /\
  ~ holds Z Z last (main _ _ d') /\ ~ holds Z Z last (old _ _ d') /\
  ~ holds Z Z c (main _ _ d') /\ ~ holds Z Z c (old _ _ d').
Proof.
  exists 10%Z, (ex_call 10%Z 5%Z), d_ten, (ex_call 20%Z 7%Z),
    (Disk Z Z (Closed _ _ (created Z Z 0%Z)) (Closed _ _ (created Z Z 0%Z))).
  split; [exact ex_reach|]. split.
  - exists (ex_ws 7%Z), 6. split; [apply (ex_schedule 20%Z 7%Z)|]. rewrite d_ten_eq.
    split; reflexivity.
  - repeat split; intros [f [E [Ht _]]]; cbn [main old] in E;
      (assert (f = created Z Z 0%Z) as -> by congruence); cbn in Ht; discriminate.
Qed.

(** Several arrays in one list are written to the same dataset: only the last
    one is stored. *)
Definition two_data : list (entry Z) := [Entry Z 0 "U" [arr_of 5%Z; arr_of 8%Z]].
Definition two_call : call Z Z := Call Z Z 2 two_data 0%Z 0%Z (fun _ => false).
Theorem C48_lists_refuted : forall ws d,
  schedule Z Z two_call ws ->
  exists f a, main _ _ (exec_all Z Z 0%Z 0%Z (call_ops Z Z 0%Z false 10%Z two_call ws) d) = Closed _ _ f
   /\ f_data _ _ f "U" 0 = Some a /\ forall i, i < 4 -> a i = (8 + Z.of_nat i)%Z.
Proof.
  intros ws d Hs. pose proof (schedule_io _ _ _ _ Hs) as Hio.
  rewrite first_update.
  rewrite main_closed_prefix by (cbn; eauto).
  change (call_saves Z Z 10 two_call) with true. cbn [main].
  eexists.
  assert (Hin : f_data _ _ (io_all Z Z 0%Z ws (created Z Z 0%Z)) "U" 0 <> None).
  { apply io_required. apply (il_in _ _ _ _ _ Hs 0); [cbn; lia|]. now left. }
  destruct (f_data Z Z (io_all Z Z 0%Z ws (created Z Z 0%Z)) "U" 0) as [a|] eqn:Ea; [|congruence].
  exists a. split; [reflexivity|]. split; [exact Ea|].
  intros i Hi.
  assert (Hv : value Z Z 0%Z (io_all Z Z 0%Z ws (created Z Z 0%Z)) "U" 0 i = (8 + Z.of_nat i)%Z).
  { rewrite (io_value Z Z 0%Z ws _ []).
    - assert (Ho : exists r, r < 2 /\ halves r i = true).
      { unfold halves. destruct (Nat.ltb i 2); [exists 0|exists 1]; auto. }
      destruct Ho as [r [Hr Ho]].
      rewrite (il_filter Z Z 2 _ ws _ r Hs Hr).
      + unfold two_call, two_data, rank_ops. cbn [c_data flat_map e_val e_name e_step app a_own a_loc arr_of filter touches].
        rewrite keyb_refl, Ho. cbn [andb last_write]. lia.
      + intros r' Hr' N o Hin'. cbn in Hin'.
        destruct (touches _ _ _ _ _ o) eqn:Et; [|reflexivity]. exfalso. apply N.
        assert (Hw : halves r' i = true).
        { destruct Hin' as [<-|[<-|[<-|[<-|[]]]]]; cbn in Et; try discriminate; exact Et. }
        revert Ho Hw. unfold halves. destruct (Nat.ltb i 2);
          rewrite !Nat.eqb_eq; intros; congruence.
    - exact Hio.
    - apply (il_ordered _ _ _ _ _ Hs). intros. apply rank_ordered.
    - intros k []. }
  unfold value in Hv. rewrite Ea in Hv. exact Hv.
Qed.

Example C48_lists_schedule : exists ws, schedule Z Z two_call ws.
Proof.
  exists (rank_ops Z Z two_data 1 ++ rank_ops Z Z two_data 0).
  unfold schedule. cbn. repeat sched.
Qed.

Print Assumptions C48_saved.
Print Assumptions C48_crash_safe.
Print Assumptions C48_read.
Print Assumptions C48_kill.
Print Assumptions C48_between.
Print Assumptions C48_main_alone_refuted.
Print Assumptions C48_new_object_refuted.
Print Assumptions C48_lists_refuted.
