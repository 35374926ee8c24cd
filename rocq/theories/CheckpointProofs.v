(** CheckpointProofs.v -- the stored data do not depend on the schedule, and one
    of the two files survives every crash. *)
From Coq Require Import Arith Lia List ZArith Bool String.
From Verif Require Import Base CheckpointModel CheckpointSpec.
Import ListNotations.

Section Proofs.
Variables (V T : Type) (vzero : V) (tzero : T).
Notation arr := (arr V). Notation entry := (entry V). Notation file := (file V T).
Notation slot := (slot V T). Notation disk := (disk V T). Notation op := (op V T).
Notation call := (call V T).
Notation exec := (exec V T vzero tzero). Notation exec_all := (exec_all V T vzero tzero).

Lemma keyb_true n n' s s' : keyb n n' s s' = true <-> n = n' /\ s = s'.
Proof.
  unfold keyb. rewrite andb_true_iff, String.eqb_eq, Nat.eqb_eq. tauto.
Qed.

Lemma keyb_refl n s : keyb n n s s = true.
Proof. apply keyb_true. auto. Qed.

(** ** Element writes act on the opened file only *)
Definition is_io (o : op) : Prop :=
  match o with Require _ _ _ _ => True | Write _ _ _ _ _ _ => True | _ => False end.

Definition io (o : op) (f : file) : file :=
  match o with
  | Require _ _ n s => require V T vzero f n s
  | Write _ _ n s own loc => write V T f n s own loc
  | _ => f
  end.

Definition io_all (l : list op) (f : file) : file := fold_left (fun f o => io o f) l f.

Lemma exec_io l : forall f o, Forall is_io l ->
  exec_all l (Disk _ _ (Busy _ _ f) o) = Disk _ _ (Busy _ _ (io_all l f)) o.
Proof.
  induction l as [|x l IH]; intros f o H; [reflexivity|].
  inversion H; subst. cbn.
  destruct x; cbn in *; try tauto; apply IH; assumption.
Qed.

Lemma exec_app l1 l2 d : exec_all (l1 ++ l2) d = exec_all l2 (exec_all l1 d).
Proof. unfold CheckpointModel.exec_all. apply fold_left_app. Qed.

(** ** Schedules *)
Lemma il_forall P prog w (Q : op -> Prop) :
  interleaving _ _ P prog w -> (forall r, r < P -> Forall Q (prog r)) -> Forall Q w.
Proof.
  intros Hil. induction Hil as [prog E0|prog r o l w Hr E _ IH]; intros H; [constructor|].
  pose proof (H r Hr) as Hq. rewrite E in Hq. inversion Hq; subst.
  constructor; [assumption|]. apply IH. intros r' Hr'.
  destruct (Nat.eq_dec r' r) as [->|N].
  - now rewrite upd_same.
  - rewrite upd_other by assumption. auto.
Qed.

(** Only one rank has effects selected by [q]: the schedule keeps their order. *)
Lemma il_filter P prog w (q : op -> bool) r0 :
  interleaving _ _ P prog w -> r0 < P ->
  (forall r, r < P -> r <> r0 -> forall o, In o (prog r) -> q o = false) ->
  filter q w = filter q (prog r0).
Proof.
  induction 1 as [prog E|prog r o l w Hr E _ IH]; intros H0 H.
  - now rewrite E.
  - destruct (Nat.eq_dec r r0) as [->|N].
    + rewrite E. cbn [filter].
      rewrite IH; [|assumption|].
      * now rewrite upd_same.
      * intros r Hr' N' o' Ho. rewrite upd_other in Ho by assumption. eauto.
    + cbn [filter].
      rewrite (H r Hr N o) by (rewrite E; now left).
      rewrite IH; [|assumption|].
      * rewrite upd_other by congruence. reflexivity.
      * intros r' Hr' N' o' Ho. destruct (Nat.eq_dec r' r) as [->|N2].
        -- rewrite upd_same in Ho. apply (H r Hr' N'). rewrite E. now right.
        -- rewrite upd_other in Ho by assumption. eauto.
Qed.

(** Nothing is written to a dataset before it was required. *)
Fixpoint ordered (ex : list (string * nat)) (l : list op) : Prop :=
  match l with
  | [] => True
  | Require _ _ n s :: l => ordered ((n, s) :: ex) l
  | Write _ _ n s _ _ :: l => In (n, s) ex /\ ordered ex l
  | _ :: l => ordered ex l
  end.

Lemma ordered_mono l : forall ex ex', incl ex ex' -> ordered ex l -> ordered ex' l.
Proof.
  induction l as [|x l IH]; intros ex ex' Hi H; [exact I|].
  destruct x; cbn in *; eauto.
  - eapply IH; [|exact H]. intros y [<-|Hy]; [now left|right; auto].
  - destruct H as [H1 H2]. split; eauto.
Qed.

Lemma il_ordered P prog w : interleaving _ _ P prog w ->
  forall ex, (forall r, r < P -> ordered ex (prog r)) -> ordered ex w.
Proof.
  induction 1 as [prog E0|prog r o l w Hr E _ IH]; intros ex H; [exact I|].
  pose proof (H r Hr) as Ho. rewrite E in Ho.
  assert (K : forall ex', incl ex ex' -> ordered ex' l -> ordered ex' w).
  { intros ex' Hi Hl. apply IH. intros r' Hr'. destruct (Nat.eq_dec r' r) as [->|N].
    - now rewrite upd_same.
    - rewrite upd_other by assumption. eapply ordered_mono; [exact Hi|auto]. }
  destruct o; cbn in *; try (apply K; [apply incl_refl|assumption]).
  - apply K; [|assumption]. apply incl_tl, incl_refl.
  - destruct Ho. split; [assumption|]. apply K; [apply incl_refl|assumption].
Qed.

(** ** The content of a dataset after the writes *)
Definition touches (n : string) (s i : nat) (o : op) : bool :=
  match o with
  | Write _ _ n' s' own _ => andb (keyb n n' s s') (own i)
  | _ => false
  end.

Fixpoint last_write (i : nat) (l : list op) (v : V) : V :=
  match l with
  | [] => v
  | Write _ _ _ _ _ loc :: l => last_write i l (loc i)
  | _ :: l => last_write i l v
  end.

Definition value (f : file) (n : string) (s i : nat) : V :=
  match f_data _ _ f n s with Some a => a i | None => vzero end.

Lemma io_exists l : forall f n s, f_data _ _ f n s <> None -> f_data _ _ (io_all l f) n s <> None.
Proof.
  induction l as [|x l IH]; intros f n s H; [exact H|].
  cbn. apply IH. destruct x; cbn; try exact H.
  - destruct (keyb n name s step); [|exact H]. destruct (f_data _ _ f n s); congruence.
  - destruct (keyb n name s step); [|exact H]. destruct (f_data _ _ f n s); congruence.
Qed.

Lemma io_required l : forall f n s, In (Require _ _ n s) l -> f_data _ _ (io_all l f) n s <> None.
Proof.
  induction l as [|x l IH]; intros f n s H; [destruct H|].
  cbn. destruct H as [->|H].
  - apply io_exists. cbn. rewrite keyb_refl. destruct (f_data _ _ f n s); congruence.
  - apply IH, H.
Qed.

Lemma io_value l : forall f ex n s i,
  Forall is_io l -> ordered ex l ->
  (forall k, In k ex -> f_data _ _ f (fst k) (snd k) <> None) ->
  value (io_all l f) n s i = last_write i (filter (touches n s i) l) (value f n s i).
Proof.
  induction l as [|x l IH]; intros f ex n s i Hio Ho Hex; [reflexivity|].
  inversion Hio; subst.
  destruct x as [| | | | | | |n' s'|n' s' own loc]; cbn in H1; try tauto.
  - cbn [touches filter io_all fold_left].
    change (fold_left (fun f o => io o f) l (io (Require V T n' s') f))
      with (io_all l (io (Require V T n' s') f)).
    rewrite (IH _ ((n', s') :: ex)); [|assumption|exact Ho|].
    + f_equal. unfold value. cbn [io require f_data].
      destruct (keyb n n' s s') eqn:Ek; [|reflexivity].
      destruct (f_data _ _ f n s); reflexivity.
    + intros k Hk. cbn [io require f_data].
      destruct (keyb (fst k) n' (snd k) s') eqn:Ek.
      * destruct (f_data _ _ f (fst k) (snd k)); discriminate.
      * destruct Hk as [<-|Hk]; [cbn in Ek; rewrite keyb_refl in Ek; discriminate|].
        now apply Hex.
  - destruct Ho as [Hin Ho].
    cbn [io_all fold_left].
    change (fold_left (fun f o => io o f) l (io (Write V T n' s' own loc) f))
      with (io_all l (io (Write V T n' s' own loc) f)).
    rewrite (IH _ ex); [|assumption|exact Ho|].
    + cbn [filter touches].
      assert (Ev : value (io (Write V T n' s' own loc) f) n s i
                   = if andb (keyb n n' s s') (own i) then loc i else value f n s i).
      { unfold value. cbn [io write f_data].
        destruct (keyb n n' s s') eqn:Ek; [|reflexivity].
        apply keyb_true in Ek. destruct Ek as [-> ->].
        pose proof (Hex _ Hin) as He. cbn [fst snd] in He.
        destruct (f_data _ _ f n' s') as [a|]; [|congruence].
        cbn [andb]. destruct (own i); reflexivity. }
      rewrite Ev. destruct (andb (keyb n n' s s') (own i)); reflexivity.
    + intros k Hk. cbn [io write f_data].
      destruct (keyb (fst k) n' (snd k) s') eqn:Ek; [|now apply Hex].
      pose proof (Hex _ Hk). destruct (f_data _ _ f (fst k) (snd k)); congruence.
Qed.

(** ** The program of one rank *)
Lemma rank_io data r : Forall is_io (rank_ops V T data r).
Proof.
  apply Forall_forall. intros o H. unfold rank_ops in H.
  apply in_flat_map in H. destruct H as [e [_ H]].
  apply in_flat_map in H. destruct H as [u [_ H]].
  destruct H as [<-|[<-|[]]]; exact I.
Qed.

Lemma ordered_app l1 : forall ex l2, ordered ex l1 -> (forall ex', incl ex ex' -> ordered ex' l2) ->
  ordered ex (l1 ++ l2).
Proof.
  induction l1 as [|x l1 IH]; intros ex l2 H1 H2; cbn [app].
  - apply H2, incl_refl.
  - destruct x; cbn in *; try (apply IH; assumption).
    + apply IH; [assumption|]. intros ex' Hi. apply H2.
      intros y Hy. apply Hi. now right.
    + destruct H1. split; [assumption|]. apply IH; assumption.
Qed.

Lemma rank_ordered data r : forall ex, ordered ex (rank_ops V T data r).
Proof.
  unfold rank_ops. induction data as [|e data IH]; intros ex; [exact I|].
  cbn [flat_map]. apply ordered_app; [|intros ex' _; apply IH].
  revert ex. induction (e_val _ e) as [|u us IHu]; intros ex; [exact I|].
  cbn. split; [now left|]. apply IHu.
Qed.

Lemma rank_touch data r n s i o :
  In o (rank_ops V T data r) -> touches n s i o = true ->
  exists e u, In e data /\ In u (e_val _ e) /\ e_name _ e = n /\ e_step _ e = s
              /\ a_own _ u r i = true.
Proof.
  intros H Ht. unfold rank_ops in H.
  apply in_flat_map in H. destruct H as [e [He H]].
  apply in_flat_map in H. destruct H as [u [Hu H]].
  destruct H as [<-|[<-|[]]]; cbn in Ht; [discriminate|].
  apply andb_true_iff in Ht. destruct Ht as [Hk Hown].
  apply keyb_true in Hk. destruct Hk as [-> ->].
  exists e, u. auto.
Qed.

Definition ekey (e : entry) := (e_name _ e, e_step _ e).

Lemma same_key data e e' : NoDup (map ekey data) -> In e data -> In e' data ->
  ekey e = ekey e' -> e = e'.
Proof.
  induction data as [|x data IH]; intros Hn H H' E; [destruct H|].
  cbn in Hn. inversion Hn as [|? ? Hx Hn']; subst.
  destruct H as [->|H], H' as [->|H']; auto.
  - exfalso. apply Hx. rewrite E. now apply in_map.
  - exfalso. apply Hx. rewrite <- E. now apply in_map.
Qed.

(** The last write of rank r to element i of "name/step". *)
Lemma rank_last data P e u r i v :
  good_data V P data -> In e data -> e_val _ e = [u] -> a_own _ u r i = true ->
  last_write i (filter (touches (e_name _ e) (e_step _ e) i) (rank_ops V T data r)) v
  = a_loc _ u r i.
Proof.
  intros [_ [Hn Hg]] He Hu Ho.
  assert (K : forall data, NoDup (map ekey data) -> (forall e, In e data -> exists u, e_val _ e = [u]) ->
     forall v, (In e data ->
       last_write i (filter (touches (e_name _ e) (e_step _ e) i) (rank_ops V T data r)) v
       = a_loc _ u r i) /\
      (~ In (ekey e) (map ekey data) ->
       last_write i (filter (touches (e_name _ e) (e_step _ e) i) (rank_ops V T data r)) v = v)).
  { clear data Hn Hg He v. induction data as [|x data IH]; intros Hn Hg v.
    - split; [intros []|reflexivity].
    - inversion Hn as [|? ? Hx Hn']; subst.
      specialize (IH Hn' (fun e H => Hg e (or_intror H))).
      destruct (Hg x (or_introl eq_refl)) as [ux Eux].
      unfold rank_ops. cbn [flat_map]. rewrite filter_app.
      fold (rank_ops V T data r).
      rewrite Eux. cbn [flat_map app filter touches].
      destruct (keyb (e_name _ e) (e_name _ x) (e_step _ e) (e_step _ x)) eqn:Ek.
      + apply keyb_true in Ek. destruct Ek as [E1 E2].
        assert (Ekk : ekey e = ekey x) by (unfold ekey; congruence).
        split.
        * intros Hin.
          assert (e = x) as <-.
          { apply (same_key (x :: data)); auto. now left. }
          assert (ux = u) as -> by congruence.
          rewrite Ho. cbn [andb app last_write].
          apply (IH (a_loc _ u r i)). exact Hx.
        * intros Hni. exfalso. apply Hni. left. now symmetry.
      + assert (Nk : ekey e <> ekey x).
        { unfold ekey. intros E. injection E as E1 E2. rewrite E1, E2, keyb_refl in Ek. discriminate. }
        cbn [andb app]. split.
        * intros [->|Hin]; [congruence|]. now apply IH.
        * intros Hni. apply IH. intros Hi. apply Hni. now right. }
  apply K; [exact Hn| |exact He].
  intros e' He'. destruct (Hg e' He') as [u' [E _]]. eauto.
Qed.

Lemma rank_require data P r e : good_data V P data -> In e data ->
  In (Require V T (e_name _ e) (e_step _ e)) (rank_ops V T data r).
Proof.
  intros [_ [_ Hg]] He. unfold rank_ops. apply in_flat_map. exists e. split; [exact He|].
  destruct (Hg e He) as [u [-> _]]. now left.
Qed.

Lemma il_in P prog w : interleaving V T P prog w -> forall r o, r < P -> In o (prog r) -> In o w.
Proof.
  induction 1 as [prog E|prog r0 o0 l w Hr E _ IH]; intros r o Hr' Hin.
  - rewrite E in Hin by assumption. destruct Hin.
  - destruct (Nat.eq_dec r r0) as [->|N].
    + rewrite E in Hin. destruct Hin as [->|Hin]; [now left|].
      right. apply (IH r0); [assumption|]. now rewrite upd_same.
    + right. apply (IH r); [assumption|]. now rewrite upd_other.
Qed.

(** All schedules store the same arrays. *)
Theorem writes_store P data ws f e u :
  good_data V P data -> interleaving V T P (rank_ops V T data) ws ->
  In e data -> e_val _ e = [u] ->
  exists a, f_data _ _ (io_all ws f) (e_name _ e) (e_step _ e) = Some a /\ is_global V P u a.
Proof.
  intros Hg Hil He Hu. assert (HP : 0 < P) by apply Hg.
  destruct (f_data _ _ (io_all ws f) (e_name _ e) (e_step _ e)) as [a|] eqn:Ea.
  2:{ exfalso. revert Ea. apply io_required.
      apply (il_in _ _ _ Hil 0); [assumption|]. eapply rank_require; eauto. }
  exists a. split; [reflexivity|].
  intros r i Hr Hi Hown.
  assert (Hv : value (io_all ws f) (e_name _ e) (e_step _ e) i = a_loc _ u r i).
  { rewrite (io_value ws f []).
    - rewrite (il_filter P _ ws _ r Hil Hr).
      + eapply rank_last; eauto.
      + intros r' Hr' N o Ho. destruct (touches _ _ _ o) eqn:Et; [|reflexivity].
        exfalso. apply N.
        destruct (rank_touch _ _ _ _ _ _ Ho Et) as [e' [u' [He' [Hu' [En [Es Ho']]]]]].
        assert (e' = e) as ->.
        { apply (same_key data); auto. apply Hg. unfold ekey. congruence. }
        rewrite Hu in Hu'. destruct Hu' as [<-|[]].
        destruct Hg as [_ [_ Hg]]. destruct (Hg e He) as [u2 [E2 Hd]].
        assert (u2 = u) as -> by congruence.
        destruct (Hd i Hi) as [r2 [_ [_ Huni]]].
        rewrite (Huni r' Hr' Ho'), (Huni r Hr Hown). reflexivity.
    - apply (il_forall _ _ _ _ Hil). intros. apply rank_io.
    - apply (il_ordered _ _ _ Hil). intros. apply rank_ordered.
    - intros k []. }
  unfold value in Hv. rewrite Ea in Hv. exact Hv.
Qed.

(** ** One call *)
Lemma main_closed_prefix h every c ws d :
  h = true -> (exists f, main _ _ d = Closed _ _ f) ->
  Forall is_io ws ->
  exec_all (call_ops V T tzero h every c ws) d
  = if call_saves V T every c
    then match main _ _ d with
         | Closed _ _ f => Disk _ _ (Closed _ _ (set_t V T (set_tstep V T (io_all ws f) (c_tstep _ _ c)) (c_t _ _ c)))
                                    (Closed _ _ f)
         | _ => d
         end
    else d.
Proof.
  intros -> [f Ef] Hio. unfold call_ops, update_ops, call_saves.
  destruct (saves every (c_tstep V T c) _); [|reflexivity].
  cbn [app]. rewrite Ef. destruct d as [m o]. cbn in Ef. subst m.
  cbn [CheckpointModel.exec_all fold_left CheckpointModel.exec main old].
  fold (exec_all (ws ++ [SetTstep V T (c_tstep V T c); SetTime V T (c_t V T c); Close V T])
                 (Disk _ _ (Busy _ _ f) (Closed _ _ f))).
  rewrite exec_app, exec_io by assumption. reflexivity.
Qed.

Definition created : file := File V T 0%Z tzero (fun _ _ => None).

Lemma first_update every c ws d :
  exec_all (call_ops V T tzero false every c ws) d
  = exec_all (call_ops V T tzero true every c ws) (Disk _ _ (Closed _ _ created) (old _ _ d)).
Proof.
  unfold call_ops, update_ops. cbn [app].
  cbn [CheckpointModel.exec_all fold_left]. reflexivity.
Qed.

Lemma schedule_io (c : call) ws : schedule V T c ws -> Forall is_io ws.
Proof. intros H. apply (il_forall _ _ _ _ H). intros. apply rank_io. Qed.

(** The state between calls. *)
Definition inv (last : option call) (h : bool) (d : disk) : Prop :=
  (h = true -> exists f, main _ _ d = Closed _ _ f) /\
  (forall c, last = Some c -> h = true /\ holds V T c (main _ _ d)).

Lemma update_inv every last h d c ws :
  inv last h d -> good_data V (c_ranks _ _ c) (c_data _ _ c) -> schedule V T c ws -> 
  inv (if call_saves V T every c then Some c else last) true
      (exec_all (call_ops V T tzero h every c ws) d).
Proof.
  intros [Hm Hl] Hg Hs. pose proof (schedule_io _ _ Hs) as Hio.
  assert (K : forall d0, (exists f, main _ _ d0 = Closed _ _ f) ->
     (forall c0, last = Some c0 -> holds V T c0 (main _ _ d0)) ->
     inv (if call_saves V T every c then Some c else last) true
         (exec_all (call_ops V T tzero true every c ws) d0)).
  { intros d0 [f Ef] Hl0. rewrite main_closed_prefix by eauto. rewrite Ef.
    destruct (call_saves V T every c).
    - split; [cbn; eauto|]. intros c0 E. injection E as <-. split; [reflexivity|].
      eexists. split; [reflexivity|]. split; [reflexivity|]. split; [reflexivity|].
      intros e u He Hu. cbn [set_t set_tstep f_data].
      apply writes_store with (data := c_data _ _ c); auto.
    - split; [intros _; eauto|]. intros c0 E. split; [reflexivity|]. auto. }
  destruct h.
  - apply K; [auto|]. intros c0 E. now apply Hl.
  - rewrite first_update. apply K; [cbn; eauto|].
    intros c0 E. destruct (Hl c0 E) as [F _]. discriminate.
Qed.

(** ** Crashes *)
Definition keeps_old (o : op) : Prop :=
  match o with CpBegin _ _ => False | CpEnd _ _ => False | _ => True end.

Lemma exec_old l : forall d, Forall keeps_old l -> old _ _ (exec_all l d) = old _ _ d.
Proof.
  induction l as [|x l IH]; intros d H; [reflexivity|].
  inversion H; subst. cbn. change (old _ _ (exec_all l (exec x d)) = old _ _ d).
  rewrite IH by assumption. destruct d as [m o].
  destruct x; cbn in *; try tauto; unfold on_main; cbn; destruct m; reflexivity.
Qed.

Lemma Forall_firstn' {A} (Q : A -> Prop) l : forall k, Forall Q l -> Forall Q (firstn k l).
Proof.
  induction l as [|x l IH]; intros [|k] H; cbn; try constructor; inversion H; subst; auto.
Qed.

Lemma crash_keeps (m m' : slot) f : crash_slot V T m m' -> m = Closed _ _ f -> m' = Closed _ _ f.
Proof. intros H ->. exact H. Qed.

Lemma interrupted_safe every last d c d' :
  inv (Some last) true d -> interrupted V T vzero tzero every true d c d' ->
  holds V T last (main _ _ d') \/ holds V T last (old _ _ d').
Proof.
  intros [_ Hl] [ws [k [Hs [Hcm Hco]]]].
  destruct (Hl last eq_refl) as [_ [f [Ef Hf]]].
  pose proof (schedule_io _ _ Hs) as Hio.
  unfold call_ops, update_ops in Hcm, Hco. cbn [app] in Hcm, Hco.
  destruct d as [m o]. cbn in Ef. subst m.
  assert (Hh : forall m', m' = Closed _ _ f -> holds V T last m') by (intros m' ->; exists f; auto).
  destruct (saves every (c_tstep V T c) _).
  2:{ left. apply Hh. rewrite firstn_nil in Hcm. apply (crash_keeps _ _ _ Hcm). reflexivity. }
  destruct k as [|[|[|k]]].
  - left. apply Hh, (crash_keeps _ _ _ Hcm). reflexivity.
  - left. apply Hh, (crash_keeps _ _ _ Hcm). reflexivity.
  - left. apply Hh, (crash_keeps _ _ _ Hcm). reflexivity.
  - right. apply Hh, (crash_keeps _ _ _ Hco).
    cbn [firstn CheckpointModel.exec_all fold_left CheckpointModel.exec main old].
    change (old V T (exec_all (firstn k (ws ++ [SetTstep V T (c_tstep V T c); SetTime V T (c_t V T c); Close V T]))
              (Disk _ _ (Busy _ _ f) (Closed _ _ f))) = Closed _ _ f).
    rewrite exec_old; [reflexivity|].
    apply Forall_firstn'. apply Forall_app. split.
    + apply Forall_forall. intros x Hx.
      rewrite Forall_forall in Hio. specialize (Hio x Hx). destruct x; cbn in *; tauto.
    + repeat constructor.
Qed.

(** The disk in the middle of the writes. *)
Lemma prefix_state every c ws k f o :
  call_saves V T every c = true -> Forall is_io ws -> k <= List.length ws ->
  exec_all (firstn (3 + k) (call_ops V T tzero true every c ws)) (Disk _ _ (Closed _ _ f) o)
  = Disk _ _ (Busy _ _ (io_all (firstn k ws) f)) (Closed _ _ f).
Proof.
  intros Hc Hio Hk. unfold call_ops, update_ops. unfold call_saves in Hc. rewrite Hc.
  cbn [app Nat.add firstn]. rewrite firstn_app.
  replace (k - List.length ws) with 0 by lia. cbn [firstn]. rewrite app_nil_r.
  cbn [CheckpointModel.exec_all fold_left CheckpointModel.exec main old].
  apply (exec_io (firstn k ws) f (Closed V T f)). now apply Forall_firstn'.
Qed.

Lemma reach_inv every last h d : reach V T vzero tzero every last h d -> inv last h d.
Proof.
  induction 1 as [d|last h d c ws _ IH Hg Hs|last h d c d' _ IH Hi Hh|last h d c d' _ IH Hi Hh].
  - split; [discriminate|]. intros c E. discriminate.
  - apply update_inv; assumption.
  - split; [intros _; destruct Hh as [f [E _]]; eauto|].
    intros c0 E. injection E as <-. auto.
  - split; [intros _; destruct Hh as [f [E _]]; cbn; eauto|].
    intros c0 E. injection E as <-. auto.
Qed.
End Proofs.
