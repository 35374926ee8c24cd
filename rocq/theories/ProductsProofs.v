(** ProductsProofs.v *)
From Coq Require Import Arith Lia List Bool.
From Verif Require Import Base Fld ProductsModel.
Import ListNotations.

Section Products.
Variable K : Fld.
Local Open Scope fld_scope.
Add Ring KR : (fringlaws K).
Notation heap := (heap K).

Lemma store_same (h : heap) c i f p : store K h c i f c i p = f p.
Proof. unfold store. rewrite !Nat.eqb_refl. reflexivity. Qed.
Lemma store_comp (h : heap) c i f j p : j <> i -> store K h c i f c j p = h c j p.
Proof. intros H. unfold store. rewrite Nat.eqb_refl. destruct (Nat.eqb_spec j i); [contradiction|reflexivity]. Qed.
Lemma store_arr (h : heap) c i f a j p : a <> c -> store K h c i f a j p = h a j p.
Proof. intros H. unfold store. destruct (Nat.eqb_spec a c); [contradiction|reflexivity]. Qed.
Ltac st := repeat match goal with
  | |- context [store K ?h ?c ?i ?f ?a ?j ?p] =>
      first [ rewrite (store_same h c i f p) | rewrite (store_comp h c i f j p) by lia | rewrite (store_arr h c i f a j p) by assumption ]
  end.

(** *** pointwise loops of the Cython versions *)
Lemma point_loop n (body : nat -> heap -> heap) :
  (forall p h a j q, q <> p -> body p h a j q = h a j q) ->
  (forall p h h', (forall a j, h a j p = h' a j p) -> forall a j, body p h a j p = body p h' a j p) ->
  forall h a j p, for_up n 0 body h a j p = if Nat.ltb p n then body p h a j p else h a j p.
Proof.
  intros H1 H2 h a j p.
  assert (forall a j p, for_up n 0 body h a j p = if Nat.ltb p (0 + n) then body p h a j p else h a j p) as E; [|apply E].
  apply (for_up_inv (fun i (h' : heap) => forall a j p, h' a j p = if Nat.ltb p i then body p h a j p else h a j p)).
  - intros. destruct (Nat.ltb_spec p0 0); [lia|reflexivity].
  - intros i h' Hi IH a0 j0 p0. destruct (Nat.ltb_spec p0 (S i)).
    + destruct (Nat.eq_dec p0 i) as [->|N].
      * apply H2. intros. rewrite IH. destruct (Nat.ltb_spec i i); [lia|reflexivity].
      * rewrite H1 by auto. rewrite IH. destruct (Nat.ltb_spec p0 i); [reflexivity|lia].
    + rewrite H1 by lia. rewrite IH. destruct (Nat.ltb_spec p0 i); [lia|reflexivity].
Qed.
Lemma store1_at (h : heap) c i p v a j q : store1 K h c i p v a j q =
  if (Nat.eqb a c && Nat.eqb j i && Nat.eqb q p)%bool then v else h a j q.
Proof. reflexivity. Qed.
Lemma store1_point (h : heap) c i p v a j q : q <> p -> store1 K h c i p v a j q = h a j q.
Proof. intros H. rewrite store1_at. destruct (Nat.eqb_spec q p); [contradiction|]. rewrite andb_false_r. reflexivity. Qed.
Lemma store1_same (h : heap) c i p v : store1 K h c i p v c i p = v.
Proof. rewrite store1_at, !Nat.eqb_refl. reflexivity. Qed.
Lemma store1_comp (h : heap) c i p v j q : j <> i -> store1 K h c i p v c j q = h c j q.
Proof. intros H. rewrite store1_at. destruct (Nat.eqb_spec j i); [contradiction|]. rewrite andb_false_r. reflexivity. Qed.
Lemma store1_arr (h : heap) c i p v a j q : a <> c -> store1 K h c i p v a j q = h a j q.
Proof. intros H. rewrite store1_at. destruct (Nat.eqb_spec a c); [contradiction|]. reflexivity. Qed.
Lemma store1_cong (h h' : heap) c i p v v' : (forall a j, h a j p = h' a j p) -> v = v' ->
  forall a j, store1 K h c i p v a j p = store1 K h' c i p v' a j p.
Proof. intros H -> a j. rewrite !store1_at, H. reflexivity. Qed.
Ltac st1 := repeat match goal with
  | |- context [store1 K ?h ?c ?i ?p ?v ?a ?j ?q] =>
      first [ rewrite (store1_same h c i p v) | rewrite (store1_comp h c i p v j q) by lia | rewrite (store1_arr h c i p v a j q) by assumption ]
  end.
(** go through a chain of stores without unfolding the lets *)
Ltac peel := lazymatch goal with
  | E : ?y = andthen K ?v ?B |- _ =>
      let z := fresh "hh" in let F := fresh "E" in
      remember v as z eqn:F; change (y = B z) in E; cbv beta in E
  | |- andthen K ?v ?B ?a ?j ?q = ?r =>
      let y := fresh "hh" in let E := fresh "E" in
      remember v as y eqn:E; change (B y a j q = r); cbv beta
  end.
Ltac unst1 := repeat match goal with
  | E : ?y = store1 K ?h ?c ?i ?p ?v |- context [?y ?a ?j ?q] =>
      let X := fresh "X" in
      first [ assert (y a j q = v) as X by (rewrite E; apply store1_same)
            | assert (y a j q = h a j q) as X by (rewrite E; first [apply store1_point; assumption | apply store1_comp; discriminate | apply store1_arr; assumption]) ];
      rewrite X; clear X
  | |- context [store1 K ?h ?c ?i ?p ?v ?a ?j ?q] =>
      first [ rewrite (store1_same h c i p v) | rewrite (store1_point h c i p v a j q) by assumption | rewrite (store1_comp h c i p v j q) by discriminate
            | rewrite (store1_arr h c i p v a j q) by assumption ]
  end.
Ltac unst := repeat match goal with
  | E : ?y = store K ?h ?c ?i ?v |- context [?y ?a ?j ?q] =>
      let X := fresh "X" in
      first [ assert (y a j q = v q) as X by (rewrite E; apply store_same)
            | assert (y a j q = h a j q) as X by (rewrite E; first [apply store_comp; discriminate | apply store_arr; assumption]) ];
      rewrite X; clear X; cbv beta
  | |- context [store K ?h ?c ?i ?v ?a ?j ?q] =>
      first [ rewrite (store_same h c i v q) | rewrite (store_comp h c i v j q) by discriminate
            | rewrite (store_arr h c i v a j q) by assumption ]; cbv beta
  end.
Ltac points := intros; cbv beta; repeat peel; unst1; reflexivity.
Lemma let_cong (v v' : heap) (B B' : heap -> heap) p : (forall a j, v a j p = v' a j p) ->
  (forall g g', (forall a j, g a j p = g' a j p) -> forall a j, B g a j p = B' g' a j p) ->
  forall a j, andthen K v B a j p = andthen K v' B' a j p.
Proof. unfold andthen. auto. Qed.
Ltac cong := let H := fresh "H" in intros ? ? ? H; cbv beta;
  repeat (apply let_cong; [apply store1_cong; [exact H|rewrite ?H; reflexivity]|];
      clear H; intros ? ? H; cbv beta);
  apply store1_cong; [exact H|rewrite ?H; reflexivity].

Ltac points0 := intros; cbv zeta; repeat rewrite store1_point by assumption; reflexivity.
Ltac cong0 := let H := fresh "H" in intros ? ? ? H; cbv zeta;
  repeat (apply store1_cong; [|rewrite ?H; reflexivity]); exact H.

Lemma cross3D_cy_at n h c a b x j p :
  cross3D_cy K n h c a b x j p =
  if (Nat.ltb p n && Nat.eqb x c)%bool then
    match j with
    | 0 => h a 1%nat p * h b 2%nat p - h a 2%nat p * h b 1%nat p
    | 1 => h a 2%nat p * h b 0%nat p - h a 0%nat p * h b 2%nat p
    | 2 => h a 0%nat p * h b 1%nat p - h a 1%nat p * h b 0%nat p
    | _ => h x j p
    end
  else h x j p.
Proof.
  unfold cross3D_cy. rewrite point_loop; [|points0|cong0].
  destruct (Nat.ltb p n); [|reflexivity]. cbv zeta. cbn [andb].
  destruct (Nat.eqb_spec x c) as [->|N].
  - destruct j as [|[|[|j]]]; st1; reflexivity.
  - st1. reflexivity.
Qed.
Lemma cross2D_cy_at n h c a b x j p :
  cross2D_cy K n h c a b x j p =
  if (Nat.ltb p n && Nat.eqb x c && Nat.eqb j 0)%bool then h a 0%nat p * h b 1%nat p - h a 1%nat p * h b 0%nat p else h x j p.
Proof.
  unfold cross2D_cy. rewrite point_loop; [|points0|cong0].
  destruct (Nat.ltb p n); [|reflexivity]. cbv zeta. cbn [andb].
  destruct (Nat.eqb_spec x c) as [->|N].
  - destruct j as [|j]; st1; reflexivity.
  - st1. reflexivity.
Qed.
Lemma outer2D_cy_at n h a b c sym i j p : c <> a -> c <> b -> (sym = true -> a = b) -> (p < n)%nat -> (i < 2)%nat -> (j < 2)%nat ->
  outer2D_cy K n h a b c sym c (2 * i + j)%nat p = h a i p * h b j p.
Proof.
  intros H1 H2 Hs Hp Hi Hj. assert (a <> c) by auto. assert (b <> c) by auto.
  unfold outer2D_cy. destruct sym.
  - rewrite <- (Hs eq_refl) in *. rewrite point_loop; [|points|cong]. destruct (Nat.ltb_spec p n); [|lia]. cbv beta.
    destruct i as [|[|i]]; try lia; destruct j as [|[|j]]; try lia; cbn [Nat.mul Nat.add]; repeat peel; unst1; ring.
  - rewrite point_loop; [|points|cong]. destruct (Nat.ltb_spec p n); [|lia]. cbv beta.
    destruct i as [|[|i]]; try lia; destruct j as [|[|j]]; try lia; cbn [Nat.mul Nat.add]; repeat peel; unst1; ring.
Qed.
Lemma outer3D_cy_at n h a b c sym i j p : c <> a -> c <> b -> (sym = true -> a = b) -> (p < n)%nat -> (i < 3)%nat -> (j < 3)%nat ->
  outer3D_cy K n h a b c sym c (3 * i + j)%nat p = h a i p * h b j p.
Proof.
  intros H1 H2 Hs Hp Hi Hj. assert (a <> c) by auto. assert (b <> c) by auto.
  unfold outer3D_cy. destruct sym.
  - rewrite <- (Hs eq_refl) in *. rewrite point_loop; [|points|cong]. destruct (Nat.ltb_spec p n); [|lia]. cbv beta.
    destruct i as [|[|[|i]]]; try lia; destruct j as [|[|[|j]]]; try lia; cbn [Nat.mul Nat.add]; repeat peel; unst1; ring.
  - rewrite point_loop; [|points|cong]. destruct (Nat.ltb_spec p n); [|lia]. cbv beta.
    destruct i as [|[|[|i]]]; try lia; destruct j as [|[|[|j]]]; try lia; cbn [Nat.mul Nat.add]; repeat peel; unst1; ring.
Qed.
Lemma outer_cy_frame dim n h a b c x j p : x <> c -> outer_cy K dim n h a b c x j p = h x j p.
Proof.
  intros Hx. destruct dim as [|[|[|[|dim]]]]; try reflexivity; cbn [outer_cy]; unfold outer2D_cy, outer3D_cy;
  destruct (Nat.eqb a b); (rewrite point_loop; [|points|cong]); destruct (Nat.ltb p n); try reflexivity; cbv beta; repeat peel; unst1; reflexivity.
Qed.
Lemma outer_frame dim h a b c x j p : x <> c -> outer K dim h a b c x j p = h x j p.
Proof.
  intros Hx. destruct dim as [|[|[|[|dim]]]]; try reflexivity; cbn [outer]; unfold outer2D, outer3D;
  destruct (Nat.eqb a b); repeat peel; unst; reflexivity.
Qed.
Lemma outer_py dim h a b c i j p : c <> a -> c <> b -> (dim = 2 \/ (dim = 3 /\ (a <> b \/ (i, j) <> (2, 1))))%nat -> (i < dim)%nat -> (j < dim)%nat ->
  outer K dim h a b c c (dim * i + j)%nat p = h a i p * h b j p.
Proof.
  intros H1 H2 Hd Hi Hj. assert (a <> c) by auto. assert (b <> c) by auto. destruct Hd as [->|[-> Hd]]; cbn [outer]; unfold outer2D, outer3D; cbv beta.
  - destruct (Nat.eqb_spec a b) as [<-|N].
    + destruct i as [|[|i]]; try lia; destruct j as [|[|j]]; try lia; cbn [Nat.mul Nat.add]; repeat peel; unst; ring.
    + destruct i as [|[|i]]; try lia; destruct j as [|[|j]]; try lia; cbn [Nat.mul Nat.add]; repeat peel; unst; ring.
  - destruct (Nat.eqb_spec a b) as [<-|N].
    + destruct i as [|[|[|i]]]; try lia; destruct j as [|[|[|j]]]; try lia; cbn [Nat.mul Nat.add]; repeat peel; unst; try ring.
      destruct Hd as [Hd|Hd]; exfalso; apply Hd; reflexivity.
    + destruct i as [|[|[|i]]]; try lia; destruct j as [|[|[|j]]]; try lia; cbn [Nat.mul Nat.add]; repeat peel; unst; ring.
Qed.
Lemma cross3D_at h c a b x j p : c <> a -> c <> b ->
  cross3D K h c a b x j p =
  if Nat.eqb x c then
    match j with
    | 0 => h a 1%nat p * h b 2%nat p - h a 2%nat p * h b 1%nat p
    | 1 => h a 2%nat p * h b 0%nat p - h a 0%nat p * h b 2%nat p
    | 2 => h a 0%nat p * h b 1%nat p - h a 1%nat p * h b 0%nat p
    | _ => h x j p
    end
  else h x j p.
Proof.
  intros H1 H2. assert (a <> c) by auto. assert (b <> c) by auto. unfold cross3D. cbv zeta. destruct (Nat.eqb_spec x c) as [->|N].
  - destruct j as [|[|[|j]]]; st; reflexivity.
  - st. reflexivity.
Qed.
Lemma cross2D_at h c a b x j p :
  cross2D K h c a b x j p = if (Nat.eqb x c && Nat.eqb j 0)%bool then h a 0%nat p * h b 1%nat p - h a 1%nat p * h b 0%nat p else h x j p.
Proof. reflexivity. Qed.

(** *** dot *)
Lemma acc1 n (f : nat -> K) s : for_up n 0 (fun i uv => uv + f i) s = s + fsum n f.
Proof.
  assert (forall n, for_up n 0 (fun i uv => uv + f i) s = s + fsum n f) as E; [|apply E].
  induction n0 as [|m IH]; [cbn; change (fsum 0 f) with (0 : K); ring|]. rewrite for_up_snoc, IH. change (fsum (S m) f) with (fsum m f + f m). cbn [Nat.add]. ring.
Qed.
(** a loop whose steps add [f i k] to entry k *)
Lemma accv n (body : nat -> (nat -> K) -> nat -> K) (f : nat -> nat -> K) :
  (forall i uv k, (i < n)%nat -> body i uv k = uv k + f i k) ->
  forall uv k, for_up n 0 body uv k = uv k + fsum n (fun i => f i k).
Proof.
  intros H uv k. assert (forall m k, (m <= n)%nat -> for_up m 0 body uv k = uv k + fsum m (fun i => f i k)) as E; [|apply E; lia].
  induction m as [|m IH]; intros k0 Hm; [cbn; change (fsum 0 _) with (0 : K); ring|]. rewrite for_up_snoc. cbn [Nat.add]. rewrite H by lia. rewrite IH by lia.
  change (fsum (S m) (fun i => f i k0)) with (fsum m (fun i => f i k0) + f m k0). ring.
Qed.
Lemma acct n (body : nat -> (nat -> nat -> K) -> nat -> nat -> K) (f : nat -> nat -> nat -> K) :
  (forall i uv k l, (i < n)%nat -> body i uv k l = uv k l + f i k l) ->
  forall uv k l, for_up n 0 body uv k l = uv k l + fsum n (fun i => f i k l).
Proof.
  intros H uv k l. assert (forall m k l, (m <= n)%nat -> for_up m 0 body uv k l = uv k l + fsum m (fun i => f i k l)) as E; [|apply E; lia].
  induction m as [|m IH]; intros k0 l0 Hm; [cbn; change (fsum 0 _) with (0 : K); ring|]. rewrite for_up_snoc. cbn [Nat.add]. rewrite H by lia. rewrite IH by lia.
  change (fsum (S m) (fun i => f i k0 l0)) with (fsum m (fun i => f i k0 l0) + f m k0 l0). ring.
Qed.
Definition ind (b : bool) (x : K) : K := if b then x else 0.
Lemma upd_ind (uv : nat -> K) i x k : upd uv i (uv i + x) k = uv k + ind (Nat.eqb k i) x.
Proof. unfold upd, ind. destruct (Nat.eqb_spec k i) as [->|]; ring. Qed.
Lemma upd2_ind (uv : nat -> nat -> K) i j x k l : upd2 uv i j (uv i j + x) k l = uv k l + ind (Nat.eqb k i && Nat.eqb l j) x.
Proof. unfold upd2, ind. destruct (Nat.eqb_spec k i) as [->|], (Nat.eqb_spec l j) as [->|]; cbn [andb]; ring. Qed.
Lemma fsum_ind n i (f : nat -> K) : (i < n)%nat -> fsum n (fun j => ind (Nat.eqb i j) (f j)) = f i.
Proof.
  intros H. unfold fsum, ind. rewrite (gsum_ext _ 0 fadd n _ (fun j => if Nat.eqb j i then f j else 0)) by (intros; rewrite Nat.eqb_sym; reflexivity).
  rewrite (gsum_delta K 0 1 fadd fmul fsub fopp (fringlaws K)). destruct (Nat.ltb_spec i n); [reflexivity|lia].
Qed.
Lemma fsum_ext n (f g : nat -> K) : (forall i, (i < n)%nat -> f i = g i) -> fsum n f = fsum n g.
Proof. apply gsum_ext. Qed.
Lemma ind_sum n b (f : nat -> K) : fsum n (fun i => ind b (f i)) = ind b (fsum n f).
Proof.
  destruct b; [reflexivity|]. unfold ind, fsum. apply (gsum_zero K 0 1 fadd fmul fsub fopp (fringlaws K)). reflexivity.
Qed.

Lemma dot21_cart_ok D u v i : (i < D)%nat -> dot21_cart K D u v i = fsum D (fun j => u i j * v j).
Proof.
  intros Hi. unfold dot21_cart.
  rewrite (accv D _ (fun i0 k => ind (Nat.eqb k i0) (fsum D (fun j => u i0 j * v j)))).
  - rewrite fsum_ind by auto. ring.
  - intros i0 uv k _. rewrite (accv D _ (fun j k => ind (Nat.eqb k i0) (u i0 j * v j))); [|intros; apply upd_ind].
    rewrite ind_sum. reflexivity.
Qed.
Lemma dot12_cart_ok D u v j : (j < D)%nat -> dot12_cart K D u v j = fsum D (fun i => u i * v i j).
Proof.
  intros Hj. unfold dot12_cart.
  rewrite (accv D _ (fun i k => fsum D (fun j0 => ind (Nat.eqb k j0) (u i * v i j0)))).
  - rewrite (fsum_ext D _ (fun i => u i * v i j)) by (intros; rewrite fsum_ind by auto; reflexivity). ring.
  - intros i uv k _. apply (accv D _ (fun j0 k => ind (Nat.eqb k j0) (u i * v i j0))). intros. apply upd_ind.
Qed.
Lemma dot22_cart_ok D u v i k : (i < D)%nat -> (k < D)%nat -> dot22_cart K D u v i k = fsum D (fun j => u i j * v j k).
Proof.
  intros Hi Hk. unfold dot22_cart.
  rewrite (acct D _ (fun i0 p q => fsum D (fun j => fsum D (fun l => ind (Nat.eqb p i0 && Nat.eqb q l) (u i0 j * v j l))))).
  - rewrite (fsum_ext D _ (fun i0 => ind (Nat.eqb i i0) (fsum D (fun j => u i0 j * v j k)))).
    + rewrite fsum_ind by auto. ring.
    + intros i0 _. destruct (Nat.eqb i i0); cbn [andb ind].
      * apply fsum_ext. intros j _. apply (fsum_ind D k (fun l => u i0 j * v j l)); auto.
      * unfold fsum. apply (gsum_zero K 0 1 fadd fmul fsub fopp (fringlaws K)). intros. apply (gsum_zero K 0 1 fadd fmul fsub fopp (fringlaws K)). reflexivity.
  - intros i0 uv p q _. apply (acct D _ (fun j p q => fsum D (fun l => ind (Nat.eqb p i0 && Nat.eqb q l) (u i0 j * v j l)))).
    intros j uv' p' q' _. apply (acct D _ (fun l p q => ind (Nat.eqb p i0 && Nat.eqb q l) (u i0 j * v j l))). intros. apply upd2_ind.
Qed.
(** curvilinear *)
Section Curv.
Variables (D : nat) (g : ten K) (gz : nat -> nat -> bool).
Hypothesis Hgz : forall i j, gz i j = true -> g i j = 0.
Lemma dot11_curv_ok u v : dot11_curv K D g gz u v = fsum D (fun i => fsum D (fun j => u i * v j * g i j)).
Proof.
  unfold dot11_curv. transitivity (for_up D 0 (fun i uv => uv + fsum D (fun j => u i * v j * g i j)) 0); [|rewrite acc1; ring].
  apply for_up_ext. intros i s _. transitivity (for_up D 0 (fun j uv => uv + u i * v j * g i j) s); [|apply acc1].
  apply for_up_ext. intros j s' _. destruct (gz i j) eqn:E; [rewrite (Hgz _ _ E); ring|reflexivity].
Qed.
Lemma dot21_curv_ok u v i : (i < D)%nat -> dot21_curv K D g gz u v i = fsum D (fun j => fsum D (fun k => u i j * v k * g j k)).
Proof.
  intros Hi. unfold dot21_curv.
  rewrite (accv D _ (fun i0 p => ind (Nat.eqb p i0) (fsum D (fun j => fsum D (fun k => u i0 j * v k * g j k))))).
  - rewrite fsum_ind by auto. ring.
  - intros i0 uv p _. rewrite <- ind_sum. apply (accv D _ (fun j p => ind (Nat.eqb p i0) (fsum D (fun k => u i0 j * v k * g j k)))).
    intros j uv' p' _. rewrite <- ind_sum. apply (accv D _ (fun k p => ind (Nat.eqb p i0) (u i0 j * v k * g j k))). intros k uv'' p'' _.
    destruct (gz j k) eqn:E; [|apply upd_ind]. rewrite (Hgz _ _ E). unfold ind. destruct (Nat.eqb p'' i0); ring.
Qed.
Lemma dot12_curv_ok u v k : (k < D)%nat -> dot12_curv K D g gz u v k = fsum D (fun i => fsum D (fun j => u i * v j k * g i j)).
Proof.
  intros Hk. unfold dot12_curv.
  rewrite (accv D _ (fun i p => fsum D (fun j => fsum D (fun k0 => ind (Nat.eqb p k0) (u i * v j k0 * g i j))))).
  - rewrite (fsum_ext D _ (fun i => fsum D (fun j => u i * v j k * g i j))); [ring|].
    intros i _. apply fsum_ext. intros j _. apply (fsum_ind D k (fun k0 => u i * v j k0 * g i j)); auto.
  - intros i uv p _. apply (accv D _ (fun j p => fsum D (fun k0 => ind (Nat.eqb p k0) (u i * v j k0 * g i j)))). intros j uv' p' _. destruct (gz i j) eqn:E.
    + rewrite (Hgz _ _ E). rewrite (fsum_ext D _ (fun _ => 0)); [|intros; unfold ind; destruct (Nat.eqb p' _); ring].
      unfold fsum. rewrite (gsum_zero K 0 1 fadd fmul fsub fopp (fringlaws K)) by reflexivity. ring.
    + apply (accv D _ (fun k0 p => ind (Nat.eqb p k0) (u i * v j k0 * g i j))). intros. apply upd_ind.
Qed.
Lemma dot22_curv_ok u v i l : (i < D)%nat -> (l < D)%nat -> dot22_curv K D g gz u v i l = fsum D (fun j => fsum D (fun k => u i j * v k l * g j k)).
Proof.
  intros Hi Hl. unfold dot22_curv.
  rewrite (acct D _ (fun i0 p q => fsum D (fun j => fsum D (fun k => fsum D (fun l0 => ind (Nat.eqb p i0 && Nat.eqb q l0) (u i0 j * v k l0 * g j k)))))).
  - rewrite (fsum_ext D _ (fun i0 => ind (Nat.eqb i i0) (fsum D (fun j => fsum D (fun k => u i0 j * v k l * g j k))))).
    + rewrite fsum_ind by auto. ring.
    + intros i0 _. destruct (Nat.eqb i i0); cbn [andb ind].
      * apply fsum_ext. intros j _. apply fsum_ext. intros k _. apply (fsum_ind D l (fun l0 => u i0 j * v k l0 * g j k)); auto.
      * unfold fsum. apply (gsum_zero K 0 1 fadd fmul fsub fopp (fringlaws K)). intros. apply (gsum_zero K 0 1 fadd fmul fsub fopp (fringlaws K)). intros. apply (gsum_zero K 0 1 fadd fmul fsub fopp (fringlaws K)). reflexivity.
  - intros i0 uv p q _. apply (acct D _ (fun j p q => fsum D (fun k => fsum D (fun l0 => ind (Nat.eqb p i0 && Nat.eqb q l0) (u i0 j * v k l0 * g j k))))).
    intros j uv' p' q' _. apply (acct D _ (fun k p q => fsum D (fun l0 => ind (Nat.eqb p i0 && Nat.eqb q l0) (u i0 j * v k l0 * g j k)))).
    intros k uv'' p'' q'' _. destruct (gz j k) eqn:E.
    + rewrite (Hgz _ _ E). rewrite (fsum_ext D _ (fun _ => 0)); [|intros; unfold ind; destruct (_ && _); ring].
      unfold fsum. rewrite (gsum_zero K 0 1 fadd fmul fsub fopp (fringlaws K)) by reflexivity. ring.
    + apply (acct D _ (fun l0 p q => ind (Nat.eqb p i0 && Nat.eqb q l0) (u i0 j * v k l0 * g j k))). intros. apply upd2_ind.
Qed.
Lemma dot11_orth_ok u v : (forall i j, i <> j -> g i j = 0) -> dot11_orth K D g u v = fsum D (fun i => fsum D (fun j => u i * v j * g i j)).
Proof.
  intros Ho. unfold dot11_orth. rewrite acc1. transitivity (fsum D (fun i => u i * v i * g i i)); [ring|]. apply fsum_ext. intros i Hi.
  symmetry. rewrite (fsum_ext D _ (fun j => ind (Nat.eqb i j) (u i * v j * g i j))).
  - apply (fsum_ind D i (fun j => u i * v j * g i j)); auto.
  - intros j _. unfold ind. destruct (Nat.eqb_spec i j); [reflexivity|]. rewrite Ho by auto. ring.
Qed.
End Curv.
End Products.

(** *** CachedArrayDict *)
Section Cache.
Variable K : Fld.
Definition inv (c : cache K) : Prop :=
  NoDup (map fst (ca_data K c)) /\ NoDup (map snd (ca_data K c)) /\ Forall (fun kv => (snd kv < ca_next K c)%nat) (ca_data K c).
Lemma find_in k l v : ca_find k l = Some v -> In (k, v) l.
Proof.
  induction l as [|[k' v'] l IH]; simpl; [discriminate|]. destruct (wkey_dec k' k) as [->|]; [intros [= ->]; auto|auto].
Qed.
Lemma find_none k l : ca_find k l = None -> ~ In k (map fst l).
Proof.
  induction l as [|[k' v'] l IH]; simpl; [tauto|]. destruct (wkey_dec k' k) as [->|N]; [discriminate|]. intros H [E|E]; [contradiction|]. apply IH; auto.
Qed.
Lemma in_find k l v : NoDup (map fst l) -> In (k, v) l -> ca_find k l = Some v.
Proof.
  induction l as [|[k' v'] l IH]; simpl; [tauto|]. intros Hn [[= -> ->]|H].
  - destruct (wkey_dec k k); [reflexivity|contradiction].
  - inversion Hn; subst. destruct (wkey_dec k' k) as [->|]; [|auto]. exfalso. apply H2. apply in_map_iff. exists (k, v). auto.
Qed.
Lemma get_inv junk c k fill : inv c -> inv (fst (ca_get K junk c k fill)).
Proof.
  intros (H1 & H2 & H3). unfold ca_get. destruct (ca_find k (ca_data K c)) eqn:E.
  - destruct fill; cbn; repeat split; auto.
  - assert (inv (mkCache K ((k, ca_next K c) :: ca_data K c) (upd (ca_mem K c) (ca_next K c) junk) (S (ca_next K c)))) as Hi.
    { repeat split; cbn.
      - constructor; auto. apply find_none; auto.
      - constructor; auto. intros Hin. apply in_map_iff in Hin. destruct Hin as ([k' v'] & Ev & Hin). rewrite Forall_forall in H3. specialize (H3 _ Hin). cbn in *. lia.
      - constructor; [cbn; lia|]. eapply Forall_impl; [|exact H3]. cbn. intros. lia. }
    destruct fill; exact Hi.
Qed.
Lemma filter_map_fst (f : wkey * nat -> bool) l : NoDup (map fst l) -> NoDup (map fst (filter f l)).
Proof.
  induction l as [|x l IH]; simpl; intros H; auto. inversion H; subst. destruct (f x); auto. simpl. constructor; auto.
  intros Hin. apply H2. apply in_map_iff in Hin. destruct Hin as (y & <- & Hy). apply in_map. apply filter_In in Hy. tauto.
Qed.
Lemma filter_map_snd (f : wkey * nat -> bool) l : NoDup (map snd l) -> NoDup (map snd (filter f l)).
Proof.
  induction l as [|x l IH]; simpl; intros H; auto. inversion H; subst. destruct (f x); auto. simpl. constructor; auto.
  intros Hin. apply H2. apply in_map_iff in Hin. destruct Hin as (y & <- & Hy). apply in_map. apply filter_In in Hy. tauto.
Qed.
Lemma step_inv c o : inv c -> inv (ca_step K c o).
Proof.
  intros H. destruct o as [k fill junk|k|v i x]; cbn [ca_step].
  - apply get_inv; auto.
  - destruct H as (H1 & H2 & H3). repeat split; cbn; [apply filter_map_fst|apply filter_map_snd|]; auto.
    rewrite Forall_forall in *. intros kv Hin. apply filter_In in Hin. apply H3. tauto.
  - exact H.
Qed.
Lemma run_inv ops : inv (ca_run K ops).
Proof.
  unfold ca_run. assert (inv (mkCache K [] (fun _ _ => f0) 0)) as H by (repeat split; constructor).
  revert H. generalize (mkCache K [] (fun _ _ => f0) 0). induction ops as [|o ops IH]; intros c H; simpl; auto. apply IH, step_inv, H.
Qed.
Lemma get_find junk c k fill : ca_find k (ca_data K (fst (ca_get K junk c k fill))) = Some (snd (ca_get K junk c k fill)).
Proof.
  unfold ca_get. destruct (ca_find k (ca_data K c)) eqn:E; destruct fill; cbn; auto; destruct (wkey_dec k k); congruence.
Qed.
(** a key keeps its array until it is deleted *)
Lemma step_find c o k v : inv c -> (forall k', o = CDel K k' -> k' <> k) -> ca_find k (ca_data K c) = Some v -> ca_find k (ca_data K (ca_step K c o)) = Some v.
Proof.
  intros Hi Hd Hf. destruct o as [k' fill junk|k'|v' i x]; cbn [ca_step].
  - unfold ca_get. destruct (ca_find k' (ca_data K c)) eqn:E; destruct fill; cbn; auto; destruct (wkey_dec k' k) as [->|]; congruence.
  - specialize (Hd k' eq_refl). cbn. apply in_find; [apply filter_map_fst; apply Hi|].
    apply filter_In. split; [apply find_in; auto|]. cbn. destruct (wkey_dec k k'); [congruence|reflexivity].
  - exact Hf.
Qed.
Lemma fold_find ops k v : forall c, inv c -> (forall k', In (CDel K k') ops -> k' <> k) -> ca_find k (ca_data K c) = Some v ->
  ca_find k (ca_data K (fold_left (ca_step K) ops c)) = Some v.
Proof.
  induction ops as [|o ops IH]; intros c Hi Hd Hf; simpl; auto. apply IH.
  - apply step_inv; auto.
  - intros k' Hin. apply Hd. right; auto.
  - apply step_find; auto. intros k' ->. apply Hd. left; auto.
Qed.
End Cache.

(** *** wrap_periodic *)
Section Wrap.
Variable T : Type.
Lemma set_nth_length k v l : k < length l -> length (set_nth k v l) = length l.
Proof. intros. unfold set_nth. rewrite app_length, firstn_length. cbn [length]. rewrite skipn_length. lia. Qed.
Lemma set_nth_nth k v l : k < length l -> forall i, nth i (set_nth k v l) 0 = if Nat.eqb i k then v else nth i l 0.
Proof.
  unfold set_nth. revert k. induction l as [|x l IH]; intros k H i; [simpl in H; lia|]. destruct k as [|k].
  - cbn. destruct i; reflexivity.
  - cbn [firstn skipn app]. destruct i as [|i]; [reflexivity|]. cbn [nth Nat.eqb]. apply IH. simpl in H. lia.
Qed.
(** the index an entry of the wrapped array is copied from *)
Lemma append_entry k (x : arr T) idx : length idx = length (a_shape T x) -> k < length idx -> nth k idx 0 <= nth k (a_shape T x) 0 -> 0 < nth k (a_shape T x) 0 ->
  a_at T (append_first T k x) idx = a_at T x (set_nth k (nth k idx 0 mod nth k (a_shape T x) 0) idx).
Proof.
  intros H Hk H1 H2. cbn [append_first a_at]. destruct (Nat.ltb_spec (nth k idx 0) (nth k (a_shape T x) 0)).
  - rewrite Nat.mod_small by auto. f_equal. unfold set_nth. clear - Hk. revert k Hk. induction idx as [|y idx IH]; intros k Hk; [simpl in Hk; lia|].
    destruct k; [reflexivity|]. cbn [firstn skipn app nth]. f_equal. apply IH. simpl in Hk. lia.
  - replace (nth k idx 0) with (nth k (a_shape T x) 0) by lia. rewrite Nat.mod_same by lia. reflexivity.
Qed.
End Wrap.
Section Wrap2.
Variable T : Type.
(** y is x with the axes in A closed periodically *)
Definition wrapped (x y : arr T) (A : nat -> bool) : Prop :=
  length (a_shape T y) = length (a_shape T x) /\
  (forall k, k < length (a_shape T x) -> nth k (a_shape T y) 0 = nth k (a_shape T x) 0 + if A k then 1 else 0) /\
  forall idx src, length idx = length (a_shape T x) -> length src = length (a_shape T x) ->
    (forall k, k < length (a_shape T x) -> nth k idx 0 < nth k (a_shape T y) 0) ->
    (forall k, k < length (a_shape T x) -> nth k src 0 = if A k then nth k idx 0 mod nth k (a_shape T x) 0 else nth k idx 0) ->
    a_at T y idx = a_at T x src.
Lemma wrapped_id x : wrapped x x (fun _ => false).
Proof.
  repeat split; auto. intros idx src H1 H2 H3 H4. f_equal. apply (nth_ext _ _ 0 0); [congruence|]. intros k Hk. symmetry. apply H4. lia.
Qed.
Lemma wrapped_step x y A k : wrapped x y A -> A k = false -> k < length (a_shape T x) -> 0 < nth k (a_shape T x) 0 ->
  wrapped x (append_first T k y) (fun i => (Nat.eqb i k || A i)%bool).
Proof.
  intros (W1 & W2 & W3) HA Hk Hp. assert (nth k (a_shape T y) 0 = nth k (a_shape T x) 0) as En by (rewrite W2, HA by auto; lia).
  assert (forall i, i < length (a_shape T x) -> nth i (a_shape T (append_first T k y)) 0 = nth i (a_shape T x) 0 + if (Nat.eqb i k || A i)%bool then 1 else 0) as Sh.
  { intros i Hi. cbn [append_first a_shape]. rewrite set_nth_nth by lia. destruct (Nat.eqb_spec i k) as [->|N]; cbn [orb]; [lia|apply W2; auto]. }
  split; [|split; [exact Sh|]].
  - cbn [append_first a_shape]. rewrite set_nth_length; lia.
  - intros idx src H1 H2 H3 H4. assert (nth k idx 0 < S (nth k (a_shape T x) 0)) as Hb by (specialize (H3 k Hk); rewrite Sh in H3 by auto; rewrite Nat.eqb_refl in H3; cbn [orb] in H3; lia).
    rewrite append_entry; try lia. apply W3; auto.
    + rewrite set_nth_length; lia.
    + intros i Hi. rewrite set_nth_nth by lia. destruct (Nat.eqb_spec i k) as [->|N].
      * rewrite En. apply Nat.mod_upper_bound. lia.
      * specialize (H3 i Hi). rewrite Sh in H3 by auto. rewrite W2 by auto. destruct (Nat.eqb_spec i k); [contradiction|]. exact H3.
    + intros i Hi. rewrite H4 by auto. rewrite set_nth_nth by lia. destruct (Nat.eqb_spec i k) as [->|N]; cbn [orb].
      * rewrite HA, En. reflexivity.
      * reflexivity.
Qed.
Lemma wrapped_ext x y A B : (forall k, k < length (a_shape T x) -> A k = B k) -> wrapped x y A -> wrapped x y B.
Proof.
  intros H (W1 & W2 & W3). split; [auto|split].
  - intros k Hk. rewrite <- H by auto. auto.
  - intros idx src H1 H2 H3 H4. apply W3; auto. intros k Hk. rewrite H by auto. auto.
Qed.
Definition axes (ax0 ax1 ax2 : bool) (k : nat) : bool := match k with 0 => ax0 | 1 => ax1 | 2 => ax2 | _ => false end.
Lemma wrap_periodic_ok x ax0 ax1 ax2 :
  (ax0 = true -> length (a_shape T x) = 2) -> (ax1 = true -> 2 <= length (a_shape T x)) -> (ax2 = true -> 3 <= length (a_shape T x)) ->
  (forall k, axes ax0 ax1 ax2 k = true -> 0 < nth k (a_shape T x) 0) ->
  exists y, wrap_periodic T x ax0 ax1 ax2 = Some y /\ wrapped x y (axes ax0 ax1 ax2).
Proof.
  intros H0 H1 H2 Hp. unfold wrap_periodic.
  assert (exists y, (if ax0 then wrap0 T x else Some x) = Some y /\ wrapped x y (axes ax0 false false)) as (y0 & E0 & W0).
  { destruct ax0.
    - specialize (H0 eq_refl). specialize (Hp 0 eq_refl). destruct (a_shape T x) as [|n [|m [|]]] eqn:E; try discriminate H0. cbn in Hp.
      assert (wrap0 T x = Some (append_first T 0 x)) as -> by (unfold wrap0; rewrite E; destruct n as [|[|n]]; [lia|reflexivity|reflexivity]).
      eexists. split; [reflexivity|]. eapply wrapped_ext; [|apply (wrapped_step x x (fun _ => false) 0); [apply wrapped_id|reflexivity|rewrite E; cbn; lia|rewrite E; exact Hp]].
      intros [|[|[|k]]] _; reflexivity.
    - eexists. split; [reflexivity|]. eapply wrapped_ext; [|apply wrapped_id]. intros [|[|[|k]]] _; reflexivity. }
  rewrite E0. cbn [obind].
  assert (exists y, (if ax1 then wrap1 T y0 else Some y0) = Some y /\ wrapped x y (axes ax0 ax1 false)) as (y1 & E1 & W1).
  { destruct ax1.
    - specialize (H1 eq_refl). specialize (Hp 1 eq_refl). unfold wrap1. destruct W0 as (L & S & R).
      rewrite L. destruct (Nat.leb_spec 2 (length (a_shape T x))); [|lia]. rewrite (S 1) by lia. cbn [axes]. rewrite Nat.add_0_r. destruct (Nat.ltb_spec 0 (nth 1 (a_shape T x) 0)); [|lia].
      eexists. split; [reflexivity|]. eapply wrapped_ext; [|apply (wrapped_step x y0 (axes ax0 false false) 1); [repeat split; assumption|reflexivity|lia|lia]].
      intros [|[|[|k]]] _; reflexivity.
    - eexists. split; [reflexivity|]. exact W0. }
  rewrite E1. cbn [obind]. destruct ax2.
  - specialize (H2 eq_refl). specialize (Hp 2 eq_refl). unfold wrap2. destruct W1 as (L & S & R).
    rewrite L. destruct (Nat.leb_spec 3 (length (a_shape T x))); [|lia]. rewrite (S 2) by lia. cbn [axes]. rewrite Nat.add_0_r. destruct (Nat.ltb_spec 0 (nth 2 (a_shape T x) 0)); [|lia].
    eexists. split; [reflexivity|]. eapply wrapped_ext; [|apply (wrapped_step x y1 (axes ax0 ax1 false) 2); [repeat split; assumption|reflexivity|lia|lia]].
    intros [|[|[|k]]] _; reflexivity.
  - eexists. split; [reflexivity|]. exact W1.
Qed.
End Wrap2.
