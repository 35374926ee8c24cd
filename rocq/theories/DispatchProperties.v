(** DispatchProperties.v -- C69: which implementation runs. *)
From Coq Require Import String Ascii List Bool Arith Lia.
From Verif Require Import DispatchModel DispatchSpec DispatchProofs.
Import ListNotations.
Local Open Scope string_scope.
Local Open Scope list_scope.

(** the backend named by the mode is asked for the function's name, then for Class_name; the
    Python function is used for every other mode, for a backend that is not installed, and for a
    name the backend does not offer *)
Theorem C69_choice : forall cython numba mode f,
  (forall b, names_backend mode b ->
     let m := if String.eqb b "cython" then cython else numba in
     (offers m (f_name f) -> exists a, optimizer cython numba mode f = Opt (f_name f) a) /\
     (~ offers m (f_name f) -> offers m (dots (f_qual f)) -> exists a, optimizer cython numba mode f = Opt (dots (f_qual f)) a) /\
     (~ offers m (f_name f) -> ~ offers m (dots (f_qual f)) -> optimizer cython numba mode f = Py f)) /\
  ((forall b, ~ names_backend mode b) -> optimizer cython numba mode f = Py f).
Proof.
  intros cy nb mode f. split.
  - intros b [Hm Hb] m. unfold optimizer. rewrite Hm.
    assert (E : negb (String.eqb b "cython") && negb (String.eqb b "numba") = false) by (destruct Hb as [-> | ->]; reflexivity).
    rewrite E. fold m.
    split; [|split].
    + intros H. destruct (getattr m (f_name f)) as [a|] eqn:G; [eauto|]. apply getattr_none in G. contradiction.
    + intros H1 H2. apply getattr_none in H1. rewrite H1.
      destruct (getattr m (dots (f_qual f))) as [a|] eqn:G; [eauto|]. apply getattr_none in G. contradiction.
    + intros H1 H2. apply getattr_none in H1. apply getattr_none in H2. rewrite H1, H2. reflexivity.
  - intros H. unfold optimizer. destruct (backend_cases mode) as [[b Hb]|[H1 H2]]; [exfalso; eapply H; eauto|].
    apply String.eqb_neq in H1, H2. rewrite H1, H2. reflexivity.
Qed.
Print Assumptions C69_choice.

(** the chosen function and its number of arguments are those of the backend *)
Theorem C69_sound : forall cython numba mode f n a, optimizer cython numba mode f = Opt n a ->
  exists b l, names_backend mode b /\ (if String.eqb b "cython" then cython else numba) = Some l /\ In (n, a) l /\
    (n = f_name f \/ n = dots (f_qual f)).
Proof.
  intros cy nb mode f n a H. destruct (backend_cases mode) as [[b Hb]|[H1 H2]].
  - exists b. destruct Hb as [Hm Hb]. unfold optimizer in H. rewrite Hm in H.
    assert (E : negb (String.eqb b "cython") && negb (String.eqb b "numba") = false) by (destruct Hb as [-> | ->]; reflexivity).
    rewrite E in H. destruct (getattr _ (f_name f)) as [x|] eqn:G.
    + injection H as <- <-. apply getattr_some in G. destruct G as (l & G1 & G2). exists l. repeat split; auto.
    + destruct (getattr _ (dots (f_qual f))) as [x|] eqn:G2; [|discriminate]. injection H as <- <-.
      apply getattr_some in G2. destruct G2 as (l & G1 & G2). exists l. repeat split; auto.
  - unfold optimizer in H. apply String.eqb_neq in H1, H2. rewrite H1, H2 in H. discriminate.
Qed.
Print Assumptions C69_sound.

(** in every session each call uses the mode in force at that call *)
Theorem C69_session : forall cython numba mode before f after m, in_force mode before m ->
  nth_error (session cython numba mode (before ++ Call f :: after)) (calls before) = Some (optimizer cython numba m f).
Proof.
  intros cy nb mode before f after m H. rewrite (session_app _ _ m) by auto.
  rewrite nth_error_app2 by (rewrite session_length; lia). rewrite session_length, Nat.sub_diag. reflexivity.
Qed.
Print Assumptions C69_session.
(** FINDING: chebyshev.bases.chebval keeps the mode of the import: after
    config['optimization']['mode'] = 'numpy' it still runs the Cython function *)
Theorem C69_chebval_refuted : exists before m, in_force "cython" before m /\ optimizer (Some cython_ns) (Some numba_ns) m n_chebval = Py n_chebval /\
  nth_error (chebval_session "cython" (Some cython_ns) (Some numba_ns) (before ++ [Call n_chebval])) (calls before) = Some (Opt "chebval" (2, 2)).
Proof. exists [SetMode "numpy"], "numpy". split; [repeat constructor|]. split; vm_compute; reflexivity. Qed.
Print Assumptions C69_chebval_refuted.

(** the tables bind no name twice, so that "the" function of a name is well defined *)
Fixpoint nodupb (l : list string) : bool :=
  match l with [] => true | x :: r => negb (existsb (String.eqb x) r) && nodupb r end.
Lemma nodupb_ok l : nodupb l = true -> NoDup l.
Proof.
  induction l as [|x r IH]; cbn; intros H; constructor; apply andb_prop in H; destruct H as [H1 H2]; auto.
  intros Hx. apply negb_true_iff in H1. assert (existsb (String.eqb x) r = true); [|congruence].
  apply existsb_exists. exists x. split; auto. apply String.eqb_refl.
Qed.
Theorem C69_names : distinct_names (Some cython_ns) /\ distinct_names (Some numba_ns) /\ NoDup (map f_qual decorated).
Proof.
  split; [|split]; [intros l H; injection H as <-|intros l H; injection H as <-|]; apply nodupb_ok; vm_compute; reflexivity.
Qed.
Print Assumptions C69_names.

(** no method is taken for another one: two decorated functions never run the same optimized
    function, in no mode (all solvers share the names Solve and LU) *)
Theorem C69_no_confusion : forall mode f g n a b, In f decorated -> In g decorated ->
  optimizer (Some cython_ns) (Some numba_ns) mode f = Opt n a ->
  optimizer (Some cython_ns) (Some numba_ns) mode g = Opt n b -> f = g.
Proof.
  assert (T : forall md : string, md = "cython" \/ md = "numba" ->
    forallb (fun f => forallb (fun g => match optimizer (Some cython_ns) (Some numba_ns) md f, optimizer (Some cython_ns) (Some numba_ns) md g with
      | Opt n _, Opt n' _ => negb (String.eqb n n') || String.eqb (f_qual f) (f_qual g) | _, _ => true end) decorated) decorated = true)
    by (intros md [-> | ->]; vm_compute; reflexivity).
  assert (U : forall f g, In f decorated -> In g decorated -> f_qual f = f_qual g -> f = g).
  { intros f g Hf Hg E. destruct C69_names as (_ & _ & ND). revert ND Hf Hg E. generalize decorated.
    induction l as [|x r IH]; cbn; intros ND Hf Hg E; [contradiction|]. inversion ND; subst.
    destruct Hf as [->|Hf], Hg as [->|Hg]; auto.
    - exfalso. apply H1. rewrite E. apply in_map; auto.
    - exfalso. apply H1. rewrite <- E. apply in_map; auto. }
  intros mode f g n a b Hf Hg H1 H2. destruct (C69_sound _ _ _ _ _ _ H1) as (bk & _ & [Hm Hb] & _).
  assert (EE : forall h, optimizer (Some cython_ns) (Some numba_ns) mode h = optimizer (Some cython_ns) (Some numba_ns) bk h).
  { intros h. unfold optimizer. rewrite Hm. destruct Hb as [-> | ->]; reflexivity. }
  rewrite EE in H1, H2. specialize (T bk Hb). rewrite forallb_forall in T. specialize (T f Hf). rewrite forallb_forall in T. specialize (T g Hg).
  rewrite H1, H2, String.eqb_refl in T. cbn in T. apply String.eqb_eq in T. auto.
Qed.
Print Assumptions C69_no_confusion.

(** the calls that the signature in the Python source allows and the backend does not serve *)
Definition unserved (b : string) : list (string * nat) :=
  if String.eqb b "cython"
  then [("leg2cheb", 1); ("cheb2leg", 1); ("Helmholtz.LU_Helmholtz", 9); ("Helmholtz.Solve_Helmholtz", 7);
        ("Helmholtz.Helmholtz_matvec", 6); ("Helmholtz.Helmholtz_Neumann_matvec", 6)]
  else [("_leg2cheb", 4); ("_cheb2leg", 4); ("Helmholtz.LU_Helmholtz", 9); ("Helmholtz.Solve_Helmholtz", 7);
        ("Helmholtz.Helmholtz_matvec", 6); ("Helmholtz.Helmholtz_Neumann_matvec", 6); ("Biharmonic.Biharmonic_matvec", 16)].
Definition outcome_eqb (a b : outcome) : bool :=
  match a, b with Runs, Runs | ArgumentError, ArgumentError | NotImplemented, NotImplemented | NoEffect, NoEffect => true | _, _ => false end.

(** with both backends installed every call allowed by the Python signature runs, in either
    backend and however the mode is spelled, except exactly those of the list above *)
Theorem C69_served_partial : forall mode b f k, names_backend mode b -> In f decorated -> allowed f k ->
  (call (optimizer (Some cython_ns) (Some numba_ns) mode f) k = Runs <-> ~ In (f_qual f, k) (unserved b)).
Proof.
  intros mode b f k [Hm Hb] Hf Hk.
  assert (EE : optimizer (Some cython_ns) (Some numba_ns) mode f = optimizer (Some cython_ns) (Some numba_ns) b f).
  { unfold optimizer. rewrite Hm. destruct Hb as [-> | ->]; reflexivity. }
  rewrite EE.
  assert (T : Bool.eqb (outcome_eqb (call (optimizer (Some cython_ns) (Some numba_ns) b f) k) Runs)
                       (negb (existsb (fun p => String.eqb (fst p) (f_qual f) && Nat.eqb (snd p) k) (unserved b))) = true).
  { apply (forall_ks (fun f k => Bool.eqb (outcome_eqb (call (optimizer (Some cython_ns) (Some numba_ns) b f) k) Runs)
                       (negb (existsb (fun p => String.eqb (fst p) (f_qual f) && Nat.eqb (snd p) k) (unserved b)))) decorated); auto.
    destruct Hb as [-> | ->]; vm_compute; reflexivity. }
  apply Bool.eqb_prop in T.
  assert (X : existsb (fun p => String.eqb (fst p) (f_qual f) && Nat.eqb (snd p) k) (unserved b) = true <-> In (f_qual f, k) (unserved b)).
  { rewrite existsb_exists. split.
    - intros ([s j] & Hi & E). cbn in E. apply andb_prop in E. destruct E as [E1 E2]. apply String.eqb_eq in E1. apply Nat.eqb_eq in E2. subst. auto.
    - intros Hi. exists (f_qual f, k). split; auto. cbn. rewrite String.eqb_refl, Nat.eqb_refl. reflexivity. }
  rewrite <- X. destruct (existsb _ (unserved b)); cbn in T.
  - split; [|intros H; exfalso; apply H; reflexivity]. intros H. rewrite H in T. discriminate.
  - split; [intros _; discriminate|]. intros _. destruct (call _ k); auto; discriminate.
Qed.
Print Assumptions C69_served_partial.

(** whatever is chosen, a call runs only with a number of arguments that the chosen function
    takes, and is an error otherwise *)
Theorem C69_arguments : forall cython numba mode f k,
  (forall n a b, optimizer cython numba mode f = Opt n (a, b) ->
     (a <= k <= b -> call (optimizer cython numba mode f) k = Runs) /\
     (~ a <= k <= b -> call (optimizer cython numba mode f) k = ArgumentError)) /\
  (optimizer cython numba mode f = Py f -> ~ allowed f k -> call (optimizer cython numba mode f) k = ArgumentError).
Proof.
  intros cy nb mode f k. split.
  - intros n a b ->. cbn. destruct (Nat.leb_spec a k), (Nat.leb_spec k b); cbn; split; intros; try reflexivity; lia.
  - intros -> H. unfold allowed in H. cbn. destruct (Nat.leb_spec (f_req f) k), (Nat.leb_spec k (f_max f)); cbn; try reflexivity; lia.
Qed.
Print Assumptions C69_arguments.

(** FINDING: leg2cheb(cl) and cheb2leg(cc), whose output array the documentation makes optional,
    are errors in the default mode *)
Theorem C69_optional_output_refuted : forall f, f_qual f = "leg2cheb" \/ f_qual f = "cheb2leg" -> In f decorated ->
  allowed f 1 /\ call (optimizer (Some cython_ns) (Some numba_ns) "cython" f) 1 = ArgumentError /\
  call (optimizer (Some cython_ns) (Some numba_ns) "numba" f) 1 = Runs /\
  call (optimizer (Some cython_ns) (Some numba_ns) "numpy" f) 1 = Runs.
Proof.
  intros f Hq Hf. unfold decorated in Hf. cbn [In] in Hf.
  do 23 (destruct Hf as [<-|Hf]; [exfalso; destruct Hq as [Hq|Hq]; discriminate Hq|]).
  destruct Hf as [<-|Hf]; [unfold allowed; cbn [f_req f_max]; split; [lia|split; [vm_compute; reflexivity|split; vm_compute; reflexivity]]|].
  destruct Hf as [<-|Hf]; [unfold allowed; cbn [f_req f_max]; split; [lia|split; [vm_compute; reflexivity|split; vm_compute; reflexivity]]|].
  do 14 (destruct Hf as [<-|Hf]; [exfalso; destruct Hq as [Hq|Hq]; discriminate Hq|]).
  contradiction.
Qed.
Print Assumptions C69_optional_output_refuted.

(** FINDING: the direct transforms of dlt.Leg2Cheb and dlt.Cheb2Leg (1056, 1161: four arguments,
    taken for N <= use_direct) run in Cython only: with numba the first is an error and the second
    leaves the output zero, without a backend both leave it zero *)
Theorem C69_direct_refuted : forall f, f_qual f = "_leg2cheb" \/ f_qual f = "_cheb2leg" -> In f decorated ->
  call (optimizer (Some cython_ns) (Some numba_ns) "cython" f) 4 = Runs /\
  call (optimizer (Some cython_ns) (Some numba_ns) "numba" f) 4 = (if String.eqb (f_qual f) "_leg2cheb" then ArgumentError else NoEffect) /\
  forall mode, (forall b, ~ names_backend mode b) -> call (optimizer (Some cython_ns) (Some numba_ns) mode f) 4 = NoEffect.
Proof.
  intros f Hq Hf. unfold decorated in Hf. cbn [In] in Hf.
  do 26 (destruct Hf as [<-|Hf]; [exfalso; destruct Hq as [Hq|Hq]; discriminate Hq|]).
  destruct Hf as [<-|Hf]; [split; [vm_compute; reflexivity|split; [vm_compute; reflexivity|intros mode Hm; rewrite (proj2 (C69_choice _ _ mode _) Hm); reflexivity]]|].
  destruct Hf as [<-|Hf]; [split; [vm_compute; reflexivity|split; [vm_compute; reflexivity|intros mode Hm; rewrite (proj2 (C69_choice _ _ mode _) Hm); reflexivity]]|].
  do 11 (destruct Hf as [<-|Hf]; [exfalso; destruct Hq as [Hq|Hq]; discriminate Hq|]).
  contradiction.
Qed.
Print Assumptions C69_direct_refuted.

(** without a backend (any other mode) everything runs but the functions whose Python body raises
    or is empty *)
Theorem C69_python : forall cython numba mode f k, (forall b, ~ names_backend mode b) -> allowed f k ->
  call (optimizer cython numba mode f) k = match f_body f with Works => Runs | Raises => NotImplemented | Noop => NoEffect end.
Proof.
  intros cy nb mode f k Hm [H1 H2]. rewrite (proj2 (C69_choice _ _ _ _) Hm). cbn.
  apply Nat.leb_le in H1, H2. rewrite H1, H2. reflexivity.
Qed.
Print Assumptions C69_python.

(** the fast path of SolverGeneric1ND: each banded solver finds its own optimized inner_solve in
    both backends, and the Cython routine knows its name *)
Theorem C69_inner : forall mode b f, names_backend mode b -> In f inner_solvers ->
  optimizer (Some cython_ns) (Some numba_ns) mode f = Opt (dots (f_qual f)) (2, 2) /\ func_from_name (dots (f_qual f)) = true.
Proof.
  intros mode b f [Hm Hb] Hf.
  assert (EE : optimizer (Some cython_ns) (Some numba_ns) mode f = optimizer (Some cython_ns) (Some numba_ns) b f).
  { unfold optimizer. rewrite Hm. destruct Hb as [-> | ->]; reflexivity. }
  rewrite EE. unfold inner_solvers in Hf. cbn [map In] in Hf.
  destruct Hb as [-> | ->]; repeat (destruct Hf as [<-|Hf]; [split; vm_compute; reflexivity|]); contradiction.
Qed.
Print Assumptions C69_inner.

Example C69_inhabited : names_backend "Numba" "numba" /\ (forall b, ~ names_backend "numpy" b) /\
  optimizer (Some cython_ns) (Some numba_ns) "Numba" (mkFn "Solve" "TDMA.Solve" 3 3 Works) = Opt "TDMA_Solve" (2, 3) /\
  optimizer None (Some numba_ns) "cython" (mkFn "Solve" "TDMA.Solve" 3 3 Works) = Py (mkFn "Solve" "TDMA.Solve" 3 3 Works) /\
  In (mkFn "Solve" "TDMA.Solve" 3 3 Works) decorated /\
  in_force "cython" [SetMode "numba"; Call n_chebval] "numba".
Proof.
  split; [split; [reflexivity|auto]|]. split; [intros b [H [-> | ->]]; discriminate H|].
  split; [vm_compute; reflexivity|]. split; [vm_compute; reflexivity|].
  split; [|repeat constructor]. unfold decorated. cbn [In]. do 11 right. left. reflexivity.
Qed.
