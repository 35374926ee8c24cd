(** ConfigProperties.v -- C67: configuration files. *)
From Coq Require Import String List Lia Bool ZArith.
From Verif Require Import ConfigModel ConfigSpec ConfigProofs.
Import ListNotations.

(** what the file says holds afterwards, at every path *)
Theorem C67_says : forall (V : Type) (c n c' : cfg V), wfc n -> update c n = Some c' ->
  forall p x, p <> [] -> says n p x -> at_path p c' = Some x.
Proof.
  intros V c n c' HW HU p x Hp Hs. destruct (update_at (S (size n)) n c c' p (Nat.lt_succ_diag_r _) HW HU) as ([H|H] & _).
  - contradiction.
  - auto.
Qed.
Print Assumptions C67_says.

(** where the file is silent nothing changes *)
Theorem C67_silent : forall (V : Type) (c n c' : cfg V), wfc n -> update c n = Some c' ->
  forall p, silent n p -> at_path p c' = at_path p c.
Proof.
  intros V c n c' HW HU p Hs. destruct (update_at (S (size n)) n c c' p (Nat.lt_succ_diag_r _) HW HU) as (_ & H & _). auto.
Qed.
Print Assumptions C67_silent.

(** the update succeeds unless a section of the file meets a single value *)
Theorem C67_succeeds : forall (V : Type) (c : cfg V) items, wfc (Map items) -> compatible c (Map items) ->
  exists c', update c (Map items) = Some c'.
Proof.
  intros V c items HW HC. apply (update_total (S (size (Map items)))); auto. exists items. reflexivity.
Qed.
Print Assumptions C67_succeeds.

(** several files: the last one that does not stay silent decides; the defaults decide if all
    are silent *)
Theorem C67_priority : forall (V : Type) (files : list (option (cfg V))) (c c' : cfg V),
  (forall f, In (Some f) files -> wfc f) -> load c files = Some c' ->
  forall p, p <> [] ->
    ((forall f, In (Some f) files -> silent f p) -> at_path p c' = at_path p c) /\
    (forall before f after x, files = before ++ Some f :: after -> says f p x ->
       (forall g, In (Some g) after -> silent g p) -> at_path p c' = Some x).
Proof.
  intros V files. induction files as [|[f|] files IH]; intros c c' HW HL p Hp.
  - injection HL as <-. split; [auto|]. intros before f after x E. destruct before; discriminate.
  - cbn [load] in HL. destruct (update c f) as [c1|] eqn:EU; [|discriminate].
    assert (HWf : wfc f) by (apply HW; left; reflexivity).
    destruct (IH c1 c' ltac:(intros g Hg; apply HW; right; auto) HL p Hp) as [I1 I2]. split.
    + intros Hs. rewrite I1 by (intros g Hg; apply Hs; right; auto).
      apply (C67_silent V c f c1 HWf EU). apply Hs. left. reflexivity.
    + intros before g after x E Hs Ha. destruct before as [|b before].
      * injection E as E1 E2. subst g after. rewrite I1 by auto. apply (C67_says V c f c1 HWf EU); auto.
      * injection E as _ E. subst files. apply (I2 before g after x); auto.
  - cbn [load] in HL. destruct (IH c c' ltac:(intros g Hg; apply HW; right; auto) HL p Hp) as [I1 I2]. split.
    + intros Hs. apply I1. intros g Hg. apply Hs. right. auto.
    + intros before g after x E Hs Ha. destruct before as [|b before]; [discriminate|].
      injection E as _ E. subst files. apply (I2 before g after x); auto.
Qed.
Print Assumptions C67_priority.

(** no other value appears: every path of the result is one of the file or one of conf *)
Theorem C67_nothing_else : forall (V : Type) (c n c' : cfg V), wfc n -> update c n = Some c' ->
  forall p v, at_path p c' = Some (Leaf v) -> at_path p n = Some (Leaf v) \/ at_path p c = Some (Leaf v).
Proof.
  intros V c n c' HW HU p v HP.
  assert (D : forall (m : cfg V) p, silent m p \/ (exists q r x, says m q x /\ p = q ++ r) \/ (exists kx l, at_path p m = Some (Map (kx :: l)))).
  { clear. intros m p. revert m. induction p as [|k p IH]; intros m.
    - destruct m as [w|[|kx l]].
      + right. left. exists [], [], (Leaf w). repeat split.
      + right. left. exists [], [], (Map []). repeat split.
      + right. right. exists kx, l. reflexivity.
    - destruct m as [w|[|kx l]].
      + right. left. exists [], (k :: p), (Leaf w). repeat split.
      + right. left. exists [], (k :: p), (Map []). repeat split.
      + cbn [silent at_path]. destruct (get k (kx :: l)) as [y|] eqn:E; [|left; exact I].
        destruct (IH y) as [H|[(q & r & x & [H T] & ->)|H]].
        * left. exact H.
        * right. left. exists (k :: q), r, x. repeat split; auto. cbn [at_path]. rewrite E. exact H.
        * right. right. exact H. }
  destruct (update_at (S (size n)) n c c' p (Nat.lt_succ_diag_r _) HW HU) as (H1 & H2 & H3).
  destruct (D n p) as [H|[(q & r & x & [H T] & E)|(kx & l & H)]].
  - right. rewrite <- H2; auto.
  - destruct q as [|k q].
    + cbn in H. injection H as ->. destruct x as [w|[|]]; cbn in T; try contradiction; [discriminate|].
      cbn in HU. injection HU as <-. right. exact HP.
    + left. rewrite (H3 (k :: q) r x) in HP; [|split; auto|discriminate|exact E].
      destruct r as [|k2 r].
      * rewrite app_nil_r in E. subst p. cbn in HP. congruence.
      * destruct x as [w|[|]]; cbn in T; try contradiction; cbn in HP; discriminate.
  - (* a section of the file is a section of the result *)
    exfalso. clear -HP H HW HU. revert n c c' HW HU H HP. induction p as [|k p IH]; intros n c c' HW HU H HP.
    + cbn in H, HP. injection H as ->. injection HP as ->. rewrite update_loop in HU.
      destruct c as [w|lc]; [destruct kx; discriminate|].
      inversion HW as [|? HN _]. subst. destruct (loop_get _ HN lc _ HU) as (l' & E & _). discriminate.
    + destruct n as [w|items]; [discriminate|]. rewrite update_loop in HU.
      inversion HW as [|? HN Hsub]. subst.
      destruct items as [|kv items]; [cbn in H; discriminate|].
      destruct c as [w|lc]; [destruct kv; discriminate|].
      destruct (loop_get _ HN lc _ HU) as (l' & -> & HG). specialize (HG k). cbn [at_path] in H, HP.
      destruct (get k (kv :: items)) as [y|] eqn:EY; [|discriminate].
      destruct HG as (z & EZ & GZ). rewrite GZ in HP.
      assert (Hy : wfc y) by (apply (Hsub (k, y)); apply get_in; auto).
      unfold new_value in EZ. destruct y as [w|[|kv2 l2]].
      * destruct p; cbn in H; discriminate.
      * destruct p; cbn in H; discriminate.
      * apply (IH _ _ _ Hy EZ H HP).
Qed.
Print Assumptions C67_nothing_else.

(** ** the defaults of shenfun (config.py 9-94, the sections without fftw) and two files *)
Open Scope string_scope.
Definition ex_defaults : cfg string := Map
  [("optimization", Map [("mode", Leaf "cython"); ("verbose", Leaf "False")]);
   ("basisvectors", Leaf "normal");
   ("transforms", Map [("kind", Map
      [("chebyshev", Leaf "fast"); ("chebyshevu", Leaf "fast"); ("fourier", Leaf "fast"); ("legendre", Leaf "recursive");
       ("ultraspherical", Leaf "recursive"); ("gegenbauer", Leaf "recursive"); ("hermite", Leaf "vandermonde");
       ("laguerre", Leaf "vandermonde"); ("jacobi", Leaf "recursive")])]);
   ("matrix", Map
     [("sparse", Map [("permc_spec", Leaf "COLAMD"); ("solve", Leaf "csc"); ("diags", Leaf "csc"); ("matvec", Leaf "csr")]);
      ("block", Map [("assemble", Leaf "csc"); ("use_scipy", Leaf "True"); ("permc_spec", Leaf "COLAMD")])]);
   ("bases", Map [("jacobi", Map [("mode", Leaf "numpy")])])].
Definition ex_home : cfg string := Map
  [("optimization", Map [("mode", Leaf "numba")]);
   ("transforms", Map [("kind", Map [("legendre", Leaf "fast")])])].
Definition ex_local : cfg string := Map
  [("transforms", Map [("kind", Map [("legendre", Leaf "vandermonde"); ("airy", Leaf "fast")])])].

Ltac wf_cfg := repeat (constructor; [cbn; repeat constructor; cbn; intuition discriminate|]; intros kx Hkx;
  repeat (destruct Hkx as [<-|Hkx]; [cbn [snd]; first [apply wf_leaf | idtac]|]); try destruct Hkx).

Example C67_inhabited :
  wfc ex_home /\ wfc ex_local /\ says ex_home ["optimization"; "mode"] (Leaf "numba") /\
  silent ex_local ["optimization"; "mode"] /\ silent ex_home ["matrix"; "sparse"; "solve"] /\
  exists c', load ex_defaults [Some ex_home; None; Some ex_local] = Some c' /\
    at_path ["optimization"; "mode"] c' = Some (Leaf "numba") /\
    at_path ["transforms"; "kind"; "legendre"] c' = Some (Leaf "vandermonde") /\
    at_path ["transforms"; "kind"; "airy"] c' = Some (Leaf "fast") /\
    at_path ["transforms"; "kind"; "chebyshev"] c' = Some (Leaf "fast") /\
    at_path ["matrix"; "sparse"; "solve"] c' = Some (Leaf "csc").
Proof.
  split; [unfold ex_home; wf_cfg|]. split; [unfold ex_local; wf_cfg|].
  split; [split; reflexivity|]. split; [exact I|]. split; [exact I|].
  eexists. split; [vm_compute; reflexivity|]. repeat split; reflexivity.
Qed.

(** ** what files can break *)
(** a section without entries removes all defaults of that section: [block: {}] *)
Theorem C67_empty_section_refuted : exists (n c' : cfg string),
  wfc n /\ update ex_defaults n = Some c' /\
  (forall p v, at_path p n <> Some (Leaf v)) /\
  at_path ["matrix"; "block"; "use_scipy"] ex_defaults = Some (Leaf "True") /\
  at_path ["matrix"; "block"; "use_scipy"] c' = None.
Proof.
  exists (Map [("matrix", Map [("block", Map [])])]). eexists.
  split; [wf_cfg|].
  split; [vm_compute; reflexivity|]. split; [|split; reflexivity].
  intros [|k [|k2 [|k3 p]]] v; cbn; try discriminate.
  - destruct (String.eqb k "matrix"); discriminate.
  - destruct (String.eqb k "matrix"); cbn; [destruct (String.eqb k2 "block")|]; discriminate.
  - destruct (String.eqb k "matrix"); cbn; [destruct (String.eqb k2 "block")|]; discriminate.
Qed.
Print Assumptions C67_empty_section_refuted.

(** a file without entries (yaml.load gives None), and a section of a file that meets a
    single value of an earlier one (a section whose entries are commented out is None there),
    stop the import *)
Theorem C67_import_refuted : forall (c : cfg string) none,
  load c [Some (Leaf none)] = None /\
  load ex_defaults [Some (Map [("matrix", Leaf none)]);
                    Some (Map [("matrix", Map [("sparse", Map [("solve", Leaf "csr")])])])] = None.
Proof. intros c none. split; reflexivity. Qed.
Print Assumptions C67_import_refuted.
