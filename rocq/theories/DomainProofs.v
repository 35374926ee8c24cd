(** DomainProofs.v *)
From Coq Require Import Reals Lra Lia List Ascii String Arith ZArith Permutation Bool.
From Verif Require Import Base Fld RPoly JacobiModel JacobiProofs2 StencilProofs StencilProofs8 DomainModel.
Import ListNotations.
Local Open Scope R_scope.
Notation rsum n f := (gsum 0 Rplus n f).

(** ** domains *)
Definition proper (d : domain) : Prop := lower d < upper d.
(** lengths that the tolerance of domain_factor does not confuse *)
Definition resolved (dom ref : domain) : Prop :=
  upper dom - lower dom = upper ref - lower ref \/ 1 / 10 ^ 12 <= Rabs ((upper dom - lower dom) - (upper ref - lower ref)).
Lemma df_pos dom ref : proper dom -> proper ref -> 0 < domain_factor dom ref.
Proof.
  unfold proper, domain_factor. intros. destruct (Rlt_dec _ _); [lra|]. apply Rdiv_lt_0_compat; lra.
Qed.
Lemma df_resolved dom ref : proper dom -> proper ref -> resolved dom ref ->
  domain_factor dom ref = (upper ref - lower ref) / (upper dom - lower dom).
Proof.
  unfold proper, domain_factor, resolved. intros H1 H2 [H|H]; destruct (Rlt_dec _ _); try reflexivity; [|lra].
  rewrite H. field. lra.
Qed.
Lemma df_same dom : domain_factor dom dom = 1.
Proof.
  unfold domain_factor. replace (upper dom - lower dom - (upper dom - lower dom)) with 0 by ring. rewrite Rabs_R0. destruct (Rlt_dec _ _) as [H|H]; [reflexivity|].
  exfalso. apply H. apply Rdiv_lt_0_compat; [lra|]. apply pow_lt. lra.
Qed.
Lemma domain_eqb_true d e : domain_eqb d e = true -> d = e.
Proof.
  unfold domain_eqb. destruct d, e; cbn. destruct (Req_EM_T _ _) as [->|]; [|discriminate]. destruct (Req_EM_T _ _) as [->|]; [auto|discriminate].
Qed.
(** one formula for both branches *)
Lemma map_ref_affine dom ref x : map_reference_domain dom ref x = lower ref + (x - lower dom) * domain_factor dom ref.
Proof.
  unfold map_reference_domain. destruct (domain_eqb dom ref) eqn:E; cbn [negb]; [|reflexivity].
  apply domain_eqb_true in E as ->. rewrite df_same. ring.
Qed.
Lemma map_true_affine dom ref x : map_true_domain dom ref x = lower dom + (x - lower ref) / domain_factor dom ref.
Proof.
  unfold map_true_domain. destruct (domain_eqb dom ref) eqn:E; cbn [negb]; [|reflexivity].
  apply domain_eqb_true in E as ->. rewrite df_same. field.
Qed.

(** ** chains of derivatives *)
Definition derivs (u : nat -> R -> R) : Prop := forall i x, derivable_pt_lim (u i) x (u (S i) x).
Lemma dpl_ext f g x l : (forall y, f y = g y) -> derivable_pt_lim f x l -> derivable_pt_lim g x l.
Proof. intros H D eps He. destruct (D eps He) as [d Hd]. exists d. intros h H1 H2. rewrite <- !H. apply Hd; auto. Qed.
Lemma chain_rule u U dom ref : proper dom -> proper ref -> derivs u -> derivs U ->
  (forall X, U 0%nat X = u 0%nat (map_true_domain dom ref X)) ->
  forall k X, U k X = u k (map_true_domain dom ref X) / domain_factor dom ref ^ k.
Proof.
  intros Hd Hr Du DU H0. pose proof (df_pos dom ref Hd Hr) as Hp. set (df := domain_factor dom ref) in *.
  induction k as [|k IH]; intros X.
  - rewrite H0. field.
  - apply (uniqueness_limite (U k) X); [apply DU|].
    apply (dpl_ext (fun X => / df ^ k * u k (map_true_domain dom ref X))).
    + intros y. rewrite IH. field. apply pow_nonzero. lra.
    + replace (u (S k) (map_true_domain dom ref X) / df ^ S k) with (/ df ^ k * (u (S k) (map_true_domain dom ref X) * (1 / df))).
      * apply (derivable_pt_lim_scal (fun X => u k (map_true_domain dom ref X))).
        apply (derivable_pt_lim_comp (map_true_domain dom ref) (u k)); [|apply Du].
        apply (dpl_ext (fun X => (lower dom - lower ref / df) + 1 / df * X)).
        -- intros y. rewrite map_true_affine. fold df. field. lra.
        -- pose proof (derivable_pt_lim_plus (fun _ => lower dom - lower ref / df) (fun X => 1 / df * X) X 0 (1 / df * 1)) as P.
           rewrite Rplus_0_l, Rmult_1_r in P. apply P; [apply derivable_pt_lim_const|].
           pose proof (derivable_pt_lim_scal (fun X => X) (1 / df) X 1 (derivable_pt_lim_id X)) as Q. rewrite Rmult_1_r in Q. exact Q.
      * cbn [pow]. field. split; [apply pow_nonzero|]; lra.
Qed.
Lemma poly_derivs p : derivs (fun i x => deriv_at i p x).
Proof. intros i x. unfold deriv_at. cbn [dn]. apply pderiv_correct. Qed.

(** ** sorting *)
Definition rank (k : bckey) : nat := match k with kD => 0 | kN => 1 | kN2 => 2 | kN3 => 3 | kN4 => 4 | kN5 => 5 | kR => 6 | kW => 7 end.
Lemma leb_rank a b : String.leb (key_name a) (key_name b) = Nat.leb (rank a) (rank b).
Proof. destruct a, b; reflexivity. Qed.
Lemma rank_inj a b : rank a = rank b -> a = b.
Proof. destruct a, b; intros H; try reflexivity; discriminate H. Qed.
Lemma insert_perm kv l : Permutation (kv :: l) (insert kv l).
Proof.
  induction l as [|kv' l IH]; cbn [insert]; [reflexivity|]. destruct (String.leb _ _); [reflexivity|].
  rewrite perm_swap. constructor. exact IH.
Qed.
Lemma sorted_perm s : Permutation s (sorted_side s).
Proof. induction s as [|kv s IH]; cbn [sorted_side fold_right]; [constructor|]. rewrite IH at 1. apply insert_perm. Qed.
Fixpoint srt (l : side) : Prop :=
  match l with [] => True | a :: r => (match r with [] => True | b :: _ => (rank (fst a) <= rank (fst b))%nat end) /\ srt r end.
Lemma insert_srt kv l : srt l -> srt (insert kv l).
Proof.
  induction l as [|a l IH]; intros H; [cbn; auto|]. cbn [insert]. rewrite leb_rank. destruct (Nat.leb_spec (rank (fst kv)) (rank (fst a))).
  - cbn [srt]. split; auto.
  - destruct H as [H1 H2]. specialize (IH H2). destruct l as [|b l]; cbn [insert] in *; [cbn; repeat split; lia|].
    rewrite leb_rank in *. destruct (Nat.leb_spec (rank (fst kv)) (rank (fst b))); cbn [srt] in *; repeat split; tauto || lia.
Qed.
Lemma sorted_srt s : srt (sorted_side s).
Proof. induction s; cbn [sorted_side fold_right]; [exact I|]. apply insert_srt. exact IHs. Qed.
Lemma srt_lb a l : srt (a :: l) -> forall b, In b l -> (rank (fst a) <= rank (fst b))%nat.
Proof.
  revert a. induction l as [|c l IH]; intros a [H1 H2] b Hb; [destruct Hb|]. destruct Hb as [<-|Hb]; [exact H1|].
  specialize (IH c H2 b Hb). lia.
Qed.
Lemma srt_unique l l' : srt l -> srt l' -> NoDup (map fst l) -> Permutation l l' -> l = l'.
Proof.
  revert l'. induction l as [|a l IH]; intros l' S1 S2 N P; [apply Permutation_nil in P; auto|].
  destruct l' as [|b l']; [symmetry in P; apply Permutation_nil in P; discriminate|].
  assert (a = b) as <-.
  { assert (In b (a :: l)) as Hb by (eapply Permutation_in; [symmetry; exact P|left; auto]).
    assert (In a (b :: l')) as Ha by (eapply Permutation_in; [exact P|left; auto]).
    destruct Hb as [E|Hb]; [exact E|]. destruct Ha as [E|Ha]; [auto|].
    assert (rank (fst a) = rank (fst b)) as E by (apply Nat.le_antisymm; [apply (srt_lb a l)|apply (srt_lb b l')]; auto).
    apply rank_inj in E. inversion N; subst. exfalso. apply H1. rewrite E. apply in_map. exact Hb. }
  f_equal. apply IH; [destruct S1; auto|destruct S2; auto|inversion N; auto|]. apply Permutation_cons_inv in P. exact P.
Qed.
Lemma sorted_unique s s' : NoDup (map fst s) -> Permutation s s' -> sorted_side s = sorted_side s'.
Proof.
  intros N P. apply srt_unique; try apply sorted_srt.
  - eapply Permutation_NoDup; [apply Permutation_map, sorted_perm|exact N].
  - rewrite <- (sorted_perm s), <- (sorted_perm s'). exact P.
Qed.

(** ** decoding the class name *)
Local Open Scope string_scope.
Fixpoint join (l : list string) : string := match l with [] => "" | s :: r => s ++ join r end.
Definition token (right : bool) (k : bckey) : string := (if right then "R" else "L") ++ key_name k.
Definition is_digit (c : Ascii.ascii) : bool := existsb (Ascii.eqb c) ["2"; "3"; "4"; "5"]%char.
(** what follows a token starts with a letter *)
Definition no_digit (s : string) : Prop := match s with EmptyString => True | String c _ => is_digit c = false end.
Lemma join_no_digit (l : list (bool * bckey)) : no_digit (join (map (fun t => token (fst t) (snd t)) l)).
Proof. destruct l as [|[[|] k] l]; cbn; auto. Qed.
Lemma token_inj r k r' k' s s' : no_digit s -> no_digit s' -> token r k ++ s = token r' k' ++ s' -> r = r' /\ k = k' /\ s = s'.
Proof.
  intros H H' E. destruct r, r'; try discriminate E; split; try reflexivity;
  destruct k, k'; cbn in E; try discriminate E; try (injection E as E; subst; auto);
  cbn in H, H'; discriminate.
Qed.
Lemma join_inj (l l' : list (bool * bckey)) :
  join (map (fun t => token (fst t) (snd t)) l) = join (map (fun t => token (fst t) (snd t)) l') -> l = l'.
Proof.
  revert l'. induction l as [|[r k] l IH]; intros l' E.
  - destruct l' as [|[[|] k'] l']; [reflexivity|discriminate|discriminate].
  - destruct l' as [|[r' k'] l']; [destruct r; discriminate|]. cbn [map join fst snd] in E.
    apply token_inj in E; try apply join_no_digit. destruct E as (-> & -> & E). f_equal. apply IH, E.
Qed.
Local Close Scope string_scope.

(** ** findbasis *)
Definition wsum (l : list (nat * R)) (f : nat -> R) : R := fold_right (fun kv s => snd kv * f (fst kv) + s) 0 l.
Lemma wsum_stencil nb M f : wsum (stencil_of nb M) f = f 0%nat + rsum nb (fun i => M i * f (S i)).
Proof.
  unfold stencil_of. cbn [wsum fold_right fst snd]. rewrite Rmult_1_l. f_equal.
  assert (forall m n, wsum (flat_map (fun i => if Req_EM_T (M i) 0 then [] else [(S i, M i)]) (seq m n)) f = rsum n (fun i => M (m + i)%nat * f (S (m + i)))) as H; [|apply H].
  intros m n. revert m. induction n as [|n IH]; intros m; [reflexivity|].
  rewrite seq_S, flat_map_app. unfold wsum at 1. rewrite fold_right_app. cbn [flat_map app].
  assert (forall l s, fold_right (fun kv s => snd kv * f (fst kv) + s) s l = wsum l f + s) as HS.
  { clear. induction l as [|a l IH]; intros s; cbn [wsum fold_right]; [ring|]. rewrite IH. unfold wsum. ring. }
  rewrite HS, IH. cbn [gsum]. f_equal. destruct (Req_EM_T (M (m + n)%nat) 0) as [->|]; cbn [app fold_right fst snd]; ring.
Qed.
Lemma opt_all_nth {A B} (F : A -> option B) l fs i (a : A) b0 : opt_all (map F l) = Some fs -> (i < List.length l)%nat ->
  F (nth i l a) = Some (nth i fs b0).
Proof.
  revert fs i. induction l as [|x l IH]; intros fs i E H; [simpl in H; lia|]. cbn [map opt_all] in E.
  destruct (F x) eqn:Ex; [|discriminate]. destruct (opt_all (map F l)) eqn:El; [|discriminate]. injection E as <-.
  destruct i as [|i]; cbn [nth]; [exact Ex|]. apply IH; [reflexivity|simpl in H; lia].
Qed.
Lemma opt_all_length {A B} (F : A -> option B) l fs : opt_all (map F l) = Some fs -> List.length fs = List.length l.
Proof.
  revert fs. induction l as [|x l IH]; intros fs E; cbn [map opt_all] in E; [injection E as <-; reflexivity|].
  destruct (F x); [|discriminate]. destruct (opt_all (map F l)); [|discriminate]. injection E as <-. cbn. f_equal. apply IH. reflexivity.
Qed.
(** all conditions in the order of orderednames, tagged with their side *)
Definition conds (b : bconds) : list (bool * (bckey * bcval)) :=
  map (pair false) (sorted_side (bleft b)) ++ map (pair true) (sorted_side (bright b)).
Lemma functionals_conds bd b : functionals bd b = opt_all (map (fun t => functional bd (fst t) (snd t)) (conds b)).
Proof. unfold functionals, conds. rewrite map_app, !map_map. reflexivity. Qed.
Lemma conds_vals b : orderedvals b = map (fun t => rhs (snd (snd t))) (conds b).
Proof. unfold orderedvals, conds. rewrite map_app, !map_map. reflexivity. Qed.
Lemma conds_num b : num_bcs b = List.length (conds b).
Proof. unfold num_bcs. rewrite conds_vals, map_length. reflexivity. Qed.
Lemma conds_in b r kv : In (r, kv) (conds b) <-> In kv (if r then bright b else bleft b).
Proof.
  unfold conds. rewrite in_app_iff, !in_map_iff. split.
  - intros [(x & E & H)|(x & E & H)]; injection E as <- <-; (eapply Permutation_in; [symmetry; apply sorted_perm|exact H]).
  - destruct r; intros H; [right|left]; (exists kv; split; [reflexivity|]; eapply Permutation_in; [apply sorted_perm|exact H]).
Qed.
