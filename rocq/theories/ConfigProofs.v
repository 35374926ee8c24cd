(** ConfigProofs.v *)
From Coq Require Import String List Lia Bool.
From Verif Require Import ConfigModel ConfigSpec.
Import ListNotations.

Section P.
  Context {V : Type}.
  Implicit Types c n x : cfg V.

  Lemma get_set_same k x (l : list (string * cfg V)) : get k (set k x l) = Some x.
  Proof.
    induction l as [|[k' y] l IH]; cbn.
    - rewrite String.eqb_refl. reflexivity.
    - destruct (String.eqb k k') eqn:E; cbn; rewrite E; auto.
  Qed.
  Lemma get_set_other k k' x (l : list (string * cfg V)) : k <> k' -> get k' (set k x l) = get k' l.
  Proof.
    intros H. induction l as [|[k2 y] l IH]; cbn.
    - destruct (String.eqb_spec k' k); congruence.
    - destruct (String.eqb_spec k k2); cbn.
      + subst. destruct (String.eqb_spec k' k2); congruence.
      + destruct (String.eqb k' k2); auto.
  Qed.
  Lemma get_in k x (l : list (string * cfg V)) : get k l = Some x -> In (k, x) l.
  Proof.
    induction l as [|[k' y] l IH]; cbn; [discriminate|].
    destruct (String.eqb_spec k k'); intros H.
    - injection H as ->. subst. auto.
    - auto.
  Qed.
  Lemma get_none k (l : list (string * cfg V)) : ~ In k (map fst l) -> get k l = None.
  Proof.
    induction l as [|[k' y] l IH]; cbn; [reflexivity|]. intros H.
    destruct (String.eqb_spec k k'); [subst; exfalso; auto|]. auto.
  Qed.

  (** the loop, by itself *)
  Definition sub (k : string) (l : list (string * cfg V)) : cfg V := match get k l with Some y => y | None => Map [] end.
  Definition new_value (k : string) (value : cfg V) (l : list (string * cfg V)) : option (cfg V) :=
    match value with Map (_ :: _) => update (sub k l) value | _ => Some value end.
  Fixpoint loop (items : list (string * cfg V)) (conf : cfg V) : option (cfg V) :=
    match items with
    | [] => Some conf
    | (key, value) :: rest =>
        match conf with
        | Leaf _ => None
        | Map l => match new_value key value l with
                   | None => None
                   | Some x => loop rest (Map (set key x l))
                   end
        end
    end.
  Lemma update_loop conf items : update conf (Map items) = loop items conf.
  Proof.
    cbn [update]. revert conf. induction items as [|[k v] items IH]; intros conf; [reflexivity|].
    cbn [loop]. destruct conf as [w|l]; [reflexivity|]. unfold new_value, sub.
    destruct (match v with Map (_ :: _) => _ | _ => _ end); auto.
  Qed.

  (** every key of the result *)
  Lemma loop_get items : NoDup (map fst items) -> forall l c', loop items (Map l) = Some c' ->
    exists l', c' = Map l' /\ forall k, match get k items with
                                        | None => get k l' = get k l
                                        | Some v => exists x, new_value k v l = Some x /\ get k l' = Some x
                                        end.
  Proof.
    induction items as [|[k v] items IH]; intros HN l c' HL.
    - injection HL as <-. exists l. split; [reflexivity|]. intros k. reflexivity.
    - cbn [map fst] in HN. inversion HN as [|? ? Hni HN']. subst.
      cbn [loop] in HL. destruct (new_value k v l) as [x|] eqn:EX; [|discriminate].
      destruct (IH HN' _ _ HL) as (l' & -> & Hl). exists l'. split; [reflexivity|]. intros k0.
      specialize (Hl k0). cbn [get]. destruct (String.eqb_spec k0 k) as [->|Hne].
      + rewrite get_none in Hl by auto. exists x. split; auto. rewrite Hl. apply get_set_same.
      + destruct (get k0 items) as [v0|] eqn:EG.
        * destruct Hl as (x0 & E0 & G0). exists x0. split; auto. unfold new_value, sub in *.
          rewrite get_set_other in E0 by auto. exact E0.
        * rewrite Hl. apply get_set_other. auto.
  Qed.

  Fixpoint size (c : cfg V) : nat :=
    match c with Leaf _ => 1 | Map l => S (fold_right (fun kx a => size (snd kx) + a) 0 l) end.
  Lemma size_in k x (l : list (string * cfg V)) : In (k, x) l -> size x < size (Map l).
  Proof.
    intros H. cbn [size]. induction l as [|kx l IH]; [destruct H|]. destruct H as [->|H]; cbn [fold_right snd]; [lia|].
    specialize (IH H). lia.
  Qed.

  Lemma update_at m : forall n c c' p, size n < m -> wfc n -> update c n = Some c' ->
    (p = [] \/ (forall x, says n p x -> at_path p c' = Some x)) /\
    (silent n p -> at_path p c' = at_path p c) /\
    (forall q r x, says n q x -> q <> [] -> p = q ++ r -> at_path p c' = at_path r x).
  Proof.
    induction m as [|m IH]; intros n c c' p Hm HW HU; [lia|].
    destruct n as [w|items]; [discriminate|]. rewrite update_loop in HU.
    destruct items as [|kv items'].
    { injection HU as <-. split; [|split].
      - destruct p as [|k p]; [auto|right]. intros x [H _]. cbn in H. discriminate.
      - destruct p; intros [].
      - intros q r x [H _] Hq. destruct q; [congruence|]. cbn in H. discriminate. }
    set (items := kv :: items') in *.
    destruct c as [w|l]; [unfold items in HU; destruct kv; discriminate|].
    inversion HW as [|? HN Hsub]. subst l0.
    destruct (loop_get items HN l c' HU) as (l' & -> & HG).
    destruct p as [|k p].
    { split; [auto|]. split; [intros []|]. intros q r x Hs Hq E. destruct q; [congruence|discriminate]. }
    specialize (HG k). cbn [at_path].
    destruct (get k items) as [v|] eqn:EG.
    2:{ split; [right|split].
        - intros x [H _]. cbn [at_path] in H. rewrite EG in H. discriminate.
        - intros _. rewrite HG. reflexivity.
        - intros q r x [H _] Hq E. destruct q as [|k' q]; [congruence|]. injection E as <- E.
          cbn [at_path] in H. rewrite EG in H. discriminate. }
    destruct HG as (y & EY & GY). rewrite GY.
    assert (Hin := get_in _ _ _ EG). assert (Hwv := Hsub _ Hin). cbn [snd] in Hwv.
    assert (Hsz := size_in _ _ _ Hin).
    assert (HT : terminal v -> y = v).
    { intros T. unfold new_value in EY. destruct v as [|[|]]; cbn in T; try contradiction; congruence. }
    assert (HNT : ~ terminal v -> update (sub k l) v = Some y).
    { intros T. unfold new_value in EY. destruct v as [|[|]]; cbn in T; auto; exfalso; auto. }
    assert (DT : terminal v \/ ~ terminal v) by (destruct v as [|[|]]; cbn; auto).
    assert (Hsil : terminal v -> forall q, ~ silent v q).
    { intros T q. destruct v as [|[|]]; cbn in T; try contradiction; destruct q; auto. }
    assert (Hbel : terminal v -> forall q x, at_path q v = Some x -> q = [] /\ x = v).
    { intros T q x. destruct v as [|[|]]; cbn in T; try contradiction; destruct q; cbn; intros H; split; congruence. }
    destruct DT as [T|T].
    - rewrite (HT T). split; [right|split].
      + intros x [H _]. cbn [at_path] in H. rewrite EG in H. exact H.
      + intros H. cbn [silent] in H. unfold items in H. fold items in H. rewrite EG in H. destruct (Hsil T _ H).
      + intros q r x [H Tx] Hq E. destruct q as [|k' q]; [congruence|]. injection E as <- E.
        cbn [at_path] in H. rewrite EG in H. destruct (Hbel T _ _ H) as [-> ->]. cbn in E. subst. reflexivity.
    - assert (EU := HNT T).
      destruct (IH v (sub k l) y p ltac:(lia) Hwv EU) as (I1 & I2 & I3).
      split; [right|split].
      + intros x [H Tx]. cbn [at_path] in H. rewrite EG in H. destruct I1 as [->|I1].
        * cbn in H. injection H as <-. contradiction.
        * apply I1. split; auto.
      + intros H. cbn [silent] in H. unfold items in H. fold items in H. rewrite EG in H.
        rewrite (I2 H). unfold sub. destruct (get k l) as [z|]; [reflexivity|].
        destruct p; [destruct H|]. reflexivity.
      + intros q r x [H Tx] Hq E. destruct q as [|k' q]; [congruence|]. injection E as <- E.
        cbn [at_path] in H. rewrite EG in H. destruct q as [|k2 q].
        * cbn in H. injection H as <-. contradiction.
        * apply (I3 (k2 :: q) r x); [split; auto | discriminate | auto].
  Qed.

  Lemma compat_sub c n l items k v : c = Map l -> n = Map items -> compatible c n -> get k items = Some v ->
    compatible (sub k l) v.
  Proof.
    intros -> -> HC HG p w kx r Hp Hq. unfold sub in Hq. destruct (get k l) as [z|] eqn:EZ.
    - apply (HC (k :: p) w kx r); cbn [at_path]; [rewrite HG|rewrite EZ]; auto.
    - destruct p; cbn in Hq; discriminate.
  Qed.
  Lemma update_total m : forall n c, size n < m -> wfc n -> (exists l, n = Map l) -> compatible c n -> exists c', update c n = Some c'.
  Proof.
    induction m as [|m IH]; intros n c Hm HW [items ->] HC; [lia|]. rewrite update_loop.
    inversion HW as [|? HN Hsub]. subst l.
    assert (HS : forall k v, In (k, v) items -> size v < m).
    { intros k v Hin. assert (X := size_in _ _ _ Hin). lia. }
    destruct items as [|kv r]; [eexists; reflexivity|].
    destruct c as [w|l]. { exfalso. apply (HC [] w kv r); reflexivity. }
    assert (HK : forall k v, In (k, v) (kv :: r) -> compatible (sub k l) v).
    { intros k v Hin. apply (compat_sub (Map l) (Map (kv :: r)) l (kv :: r) k v); auto.
      clear -HN Hin. induction (kv :: r) as [|[k' v'] s IHs]; [destruct Hin|]. cbn [map fst] in HN. inversion HN. subst.
      cbn [get]. destruct (String.eqb_spec k k') as [->|Hne].
      - destruct Hin as [E|Hin]; [congruence|]. exfalso. apply H1. apply (in_map fst) in Hin. exact Hin.
      - destruct Hin as [E|Hin]; [congruence|]. auto. }
    clear HC HW Hm. revert l HN Hsub HS HK. induction (kv :: r) as [|[k v] s IHs]; intros l HN Hsub HS HK.
    { eexists. reflexivity. }
    cbn [map fst] in HN. inversion HN as [|? ? Hni HN']. subst. cbn [loop].
    assert (exists x, new_value k v l = Some x) as [x EX].
    { unfold new_value. destruct v as [w|[|kv' r']]; [eexists; reflexivity | eexists; reflexivity |].
      apply IH.
      - apply (HS k). left. reflexivity.
      - apply (Hsub (k, Map (kv' :: r'))). left. reflexivity.
      - eexists. reflexivity.
      - apply HK. left. reflexivity. }
    rewrite EX. apply IHs; auto.
    - intros kx Hin. apply Hsub. right. auto.
    - intros k0 v0 Hin. apply (HS k0). right. auto.
    - intros k0 v0 Hin. unfold sub. rewrite get_set_other.
      + apply HK. right. auto.
      + intros <-. apply Hni. apply (in_map fst) in Hin. exact Hin.
  Qed.
End P.
