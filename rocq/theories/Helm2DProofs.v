(** Helm2DProofs.v *)
From Coq Require Import Arith ZArith List Lia Bool Field.
From Verif Require Import Base Fld SolversModel SolversSpec SparseModel SparseSpec TPSpec
  MDSolveModel MDSolveSpec NDSolveProofs Helm2DModel Helm2DSpec.
Import ListNotations.
Local Open Scope nat_scope.

Section P.
  Variable K : Fld.
  Notation vec := (nat -> K).
  Notation dia := (nat -> nat -> K).
  Add Field KF : (flaws K).

  Lemma z_l (x : K) : fmul f0 x = f0. Proof. ring. Qed.
  Lemma fsum_trunc n m (f : vec) : (forall k, n <= k -> f k = f0) -> fsum (n + m) f = fsum n f.
  Proof.
    intros H. rewrite fsum_split. rewrite (fsum_zero K m) by (intros; apply H; lia). generalize (fsum n f). intros. ring.
  Qed.
  Lemma padV_in n (V : dia) i j : i < n -> j < n -> padV K n V i j = V i j.
  Proof. intros Hi Hj. unfold padV. rewrite (proj2 (Nat.ltb_lt i n) Hi), (proj2 (Nat.ltb_lt j n) Hj). reflexivity. Qed.
  Lemma padV_out n (V : dia) i j : n <= i \/ n <= j -> padV K n V i j = f0.
  Proof.
    intros H. unfold padV. destruct (Nat.ltb_spec i n), (Nat.ltb_spec j n); try reflexivity. lia.
  Qed.
  Lemma padl_in n (l : vec) i : i < n -> padl K n l i = l i.
  Proof. intros H. unfold padl. rewrite (proj2 (Nat.ltb_lt i n) H). reflexivity. Qed.

  (** (X x Y) (V W) = sum over m of (X V)_im (Y W^T)_jm *)
  Lemma kron2 n0 n1 X Y (U V : dia) (W : nat -> nat -> K) i j :
    square K n0 X -> square K n1 Y -> (forall k l, k < n0 -> l < n1 -> U k l = fsum n0 (fun m => fmul (V k m) (W m l))) ->
    kron K [X; Y] [i; j] (arr2 K U)
    = fsum n0 (fun m => fmul (fsum n0 (fun k => fmul (mat_entry K X i k) (V k m)))
                             (fsum n1 (fun l => fmul (mat_entry K Y j l) (W m l)))).
  Proof.
    intros [_ HX] [_ HY] HU. cbn [kron]. rewrite HX, HY.
    transitivity (fsum n0 (fun k => fsum n0 (fun m => fmul (fmul (mat_entry K X i k) (V k m))
       (fsum n1 (fun l => fmul (mat_entry K Y j l) (W m l)))))).
    - apply fsum_ext. intros k Hk. cbn [arr2].
      transitivity (fmul (mat_entry K X i k) (fsum n0 (fun m => fmul (V k m) (fsum n1 (fun l => fmul (mat_entry K Y j l) (W m l)))))).
      + f_equal. transitivity (fsum n1 (fun l => fsum n0 (fun m => fmul (mat_entry K Y j l) (fmul (V k m) (W m l))))).
        * apply fsum_ext. intros l Hl. rewrite HU by auto. rewrite fsum_scal. reflexivity.
        * rewrite fsum_swap. apply fsum_ext. intros m Hm. rewrite <- fsum_scal. apply fsum_ext. intros l Hl. ring.
      + rewrite <- fsum_scal. apply fsum_ext. intros m Hm. ring.
    - rewrite fsum_swap. apply fsum_ext. intros m Hm. rewrite fsum_scal_r. reflexivity.
  Qed.

  (** sum over m of V_im (V^T b)_m = b_i *)
  Lemma complete n (V : dia) (b : vec) i : i < n ->
    (forall k, k < n -> fsum n (fun m => fmul (V i m) (V k m)) = delta K i k) ->
    fsum n (fun m => fmul (V i m) (fsum n (fun k => fmul (V k m) (b k)))) = b i.
  Proof.
    intros Hi H. transitivity (fsum n (fun k => if k =? i then b k else f0)).
    2:{ rewrite fsum_delta, (proj2 (Nat.ltb_lt i n) Hi). reflexivity. }
    transitivity (fsum n (fun m => fsum n (fun k => fmul (fmul (V i m) (V k m)) (b k)))).
    - apply fsum_ext. intros m Hm. rewrite <- fsum_scal. apply fsum_ext. intros k Hk. ring.
    - rewrite fsum_swap. apply fsum_ext. intros k Hk. rewrite fsum_scal_r, H by auto. unfold delta.
      rewrite (Nat.eqb_sym i k). destruct (k =? i); ring.
  Qed.
  Lemma fsum3 n (f g h : vec) : fadd (fadd (fsum n f) (fsum n g)) (fsum n h) = fsum n (fun i => fadd (fadd (f i) (g i)) (h i)).
  Proof. rewrite !fsum_add. reflexivity. Qed.

  Section Banded.
    Variables (H : helm2 K) (n0 n1 : nat) (l : vec) (V : dia) (sA : K).
    Hypothesis Hsh : h2_shape K H n0 n1.
    Hypothesis HB : forall i j, i < n0 -> j < n0 -> mat_entry K (h_B K H) i j = band K (h_B K H) i j.
    Hypothesis HA : forall i j, i < n0 -> j < n0 -> mat_entry K (h_A K H) i j = if i =? j then sA else f0.
    Hypothesis HE : eigen K n0 (band K (h_B K H)) l V.
    Hypothesis Hl : forall i, i < n0 -> l i <> f0.
    Hypothesis H1 : fmul (h_sAUB K H) sA = f1.
    Hypothesis H2 : h_sBUA K H = h_sAUB K H.

    Lemma banded_core (w : nat -> nat -> nat -> K) (b : dia) :
      md_solves K n0 1 n1 (h2_terms K H (padl K n0 l)) w
        (fun i _ r => fdiv (fsum (n0 + 2) (fun k => fmul (padV K n0 V k i) (b k r))) (padl K n0 l i)) ->
      h2_solves K H n0 n1 (fun i j => fsum (n0 + 2) (fun k => fmul (padV K n0 V i k) (w k 0 j))) b.
    Proof.
      intros HW i j Hi Hj. destruct Hsh as (SB & SA & SB1 & SA1).
      set (U := fun i j => fsum (n0 + 2) (fun k => fmul (padV K n0 V i k) (w k 0 j))).
      set (W := fun m r => w m 0 r).
      assert (HU : forall k c, k < n0 -> c < n1 -> U k c = fsum n0 (fun m => fmul (V k m) (W m c))).
      { intros k c Hk Hc. unfold U. rewrite fsum_trunc.
        - apply fsum_ext. intros m Hm. rewrite padV_in by auto. reflexivity.
        - intros m Hm. rewrite padV_out by auto. apply z_l. }
      unfold h2_op. rewrite (kron2 n0 n1 _ _ U V W i j SB SB1 HU), (kron2 n0 n1 _ _ U V W i j SA SB1 HU), (kron2 n0 n1 _ _ U V W i j SB SA1 HU).
      assert (HX : forall m, m < n0 -> fsum n0 (fun k => fmul (mat_entry K (h_B K H) i k) (V k m)) = fmul (V i m) (l m)).
      { intros m Hm. rewrite <- (proj1 (HE i m Hi Hm)). apply fsum_ext. intros k Hk. rewrite HB by auto. reflexivity. }
      assert (HY : forall m, m < n0 -> fsum n0 (fun k => fmul (mat_entry K (h_A K H) i k) (V k m)) = fmul sA (V i m)).
      { intros m Hm. transitivity (fsum n0 (fun k => if k =? i then fmul sA (V k m) else f0)).
        - apply fsum_ext. intros k Hk. rewrite HA by auto. rewrite (Nat.eqb_sym i k). destruct (k =? i); ring.
        - rewrite fsum_delta, (proj2 (Nat.ltb_lt i n0) Hi). reflexivity. }
      rewrite <- !fsum_scal. rewrite fsum3.
      transitivity (fsum n0 (fun m => fmul (V i m) (fsum n0 (fun k => fmul (V k m) (b k j))))).
      2:{ apply (complete n0 V (fun k => b k j) i Hi). intros k Hk. apply (HE i k Hi Hk). }
      apply fsum_ext. intros m Hm. rewrite HX, HY by auto.
      destruct (HW m 0 Hm ltac:(lia)) as [HR _]. specialize (HR j Hj).
      unfold md_row, h2_terms in HR. cbn [lsum t_scale t_mat] in HR.
      rewrite padl_in in HR by auto.
      rewrite fsum_trunc in HR by (intros k Hk; rewrite padV_out by auto; apply z_l).
      rewrite (fsum_ext K n0 _ (fun k => fmul (V k m) (b k j))) in HR.
      2:{ intros k Hk. rewrite padV_in by auto. reflexivity. }
      change (fun c => fmul (mat_entry K (h_A1 K H) j c) (w m 0 c)) with (fun c => fmul (mat_entry K (h_A1 K H) j c) (W m c)) in HR.
      change (fun c => fmul (mat_entry K (h_B1 K H) j c) (w m 0 c)) with (fun c => fmul (mat_entry K (h_B1 K H) j c) (W m c)) in HR.
      revert HR. generalize (fsum n1 (fun c => fmul (mat_entry K (h_A1 K H) j c) (W m c))).
      generalize (fsum n1 (fun c => fmul (mat_entry K (h_B1 K H) j c) (W m c))).
      generalize (fsum n0 (fun k => fmul (V k m) (b k j))). intros r p q HR.
      assert (L := Hl m Hm). rewrite H2.
      assert (HR' : r = fmul (l m) (fadd (fmul (h_sAUB K H) q) (fadd (fmul (fadd (h_sBUB K H) (fdiv f1 (l m))) p) f0))).
      { rewrite HR. field. auto. }
      rewrite HR'. clear HR HR'.
      transitivity (fadd (fadd (fmul (h_sBUB K H) (fmul (fmul (V i m) (l m)) p)) (fmul (fmul (h_sAUB K H) sA) (fmul (V i m) p)))
        (fmul (h_sAUB K H) (fmul (fmul (V i m) (l m)) q))); [ring|].
      rewrite H1. field. auto.
    Qed.
  End Banded.

  Section General.
    Variables (H : helm2 K) (n0 n1 : nat) (lx ly : vec) (Vx Vy : dia).
    Hypothesis Hsh : h2_shape K H n0 n1.
    Let B := mat_entry K (h_B K H).
    Let B1 := mat_entry K (h_B1 K H).
    Let A := mat_entry K (h_A K H).
    Let A1 := mat_entry K (h_A1 K H).
    Hypothesis HEx : gen_eigen K n0 A B lx Vx.
    Hypothesis HEy : gen_eigen K n1 A1 B1 ly Vy.
    Hypothesis H1 : h_sAUB K H = f1.
    Hypothesis H2 : h_sBUA K H = f1.
    Hypothesis Hd : forall m p, m < n0 -> p < n1 -> fadd (fadd (h_sBUB K H) (lx m)) (ly p) <> f0.

    (** the value after the last two products, with unpadded vectors *)
    Definition h2_W (b : dia) (m p : nat) : K :=
      fdiv (fsum n1 (fun j => fmul (fsum n0 (fun k => fmul (Vx k m) (b k j))) (Vy j p)))
           (fadd (fadd (h_sBUB K H) (lx m)) (ly p)).
    Lemma general_core (b U : dia) :
      (forall i j, i < n0 -> j < n1 ->
         U i j = fsum n0 (fun m => fmul (Vx i m) (fsum n1 (fun p => fmul (h2_W b m p) (Vy j p))))) ->
      h2_solves K H n0 n1 U b.
    Proof.
      intros HU i j Hi Hj. destruct Hsh as (SB & SA & SB1 & SA1).
      set (W := fun m c => fsum n1 (fun p => fmul (h2_W b m p) (Vy c p))).
      unfold h2_op. rewrite (kron2 n0 n1 _ _ U Vx W i j SB SB1 HU), (kron2 n0 n1 _ _ U Vx W i j SA SB1 HU), (kron2 n0 n1 _ _ U Vx W i j SB SA1 HU).
      set (C m := fsum n0 (fun k => fmul (B i k) (Vx k m))).
      set (D p := fsum n1 (fun k => fmul (B1 j k) (Vy k p))).
      assert (HA' : forall m, m < n0 -> fsum n0 (fun k => fmul (A i k) (Vx k m)) = fmul (C m) (lx m)).
      { intros m Hm. apply (HEx i m Hi Hm). }
      assert (Hin : forall (Y : dia) m, fsum n1 (fun c => fmul (Y j c) (W m c))
        = fsum n1 (fun p => fmul (h2_W b m p) (fsum n1 (fun c => fmul (Y j c) (Vy c p))))).
      { intros Y m. unfold W.
        transitivity (fsum n1 (fun c => fsum n1 (fun p => fmul (h2_W b m p) (fmul (Y j c) (Vy c p))))).
        - apply fsum_ext. intros c _. rewrite <- fsum_scal. apply fsum_ext. intros p _. ring.
        - rewrite fsum_swap. apply fsum_ext. intros p _. rewrite fsum_scal. reflexivity. }
      assert (HB1 : forall m, fsum n1 (fun c => fmul (B1 j c) (W m c)) = fsum n1 (fun p => fmul (h2_W b m p) (D p))).
      { intros m. apply (Hin B1). }
      assert (HA1 : forall m, fsum n1 (fun c => fmul (A1 j c) (W m c)) = fsum n1 (fun p => fmul (h2_W b m p) (fmul (D p) (ly p)))).
      { intros m. rewrite (Hin A1). apply fsum_ext. intros p Hp. f_equal. apply (HEy j p Hj Hp). }
      rewrite H1, H2. rewrite <- !fsum_scal. rewrite fsum3.
      transitivity (fsum n0 (fun m => fmul (C m) (fsum n0 (fun k => fmul (Vx k m) (b k j))))).
      2:{ transitivity (fsum n0 (fun k => if k =? i then b k j else f0)).
          2:{ rewrite fsum_delta, (proj2 (Nat.ltb_lt i n0) Hi). reflexivity. }
          transitivity (fsum n0 (fun m => fsum n0 (fun k => fmul (fmul (C m) (Vx k m)) (b k j)))).
          - apply fsum_ext. intros m _. rewrite <- fsum_scal. apply fsum_ext. intros k _. ring.
          - rewrite fsum_swap. apply fsum_ext. intros k Hk. rewrite fsum_scal_r.
            assert (E := proj2 (HEx i k Hi Hk)). fold B in E. unfold C. rewrite E. unfold delta.
            rewrite (Nat.eqb_sym i k). destruct (k =? i); ring. }
      apply fsum_ext. intros m Hm. fold A B B1 A1. rewrite HA' by auto. fold (C m). rewrite HB1, HA1.
      set (g := fun c => fsum n0 (fun k => fmul (Vx k m) (b k c))).
      change (fsum n0 (fun k => fmul (Vx k m) (b k j))) with (g j).
      assert (EG : g j = fsum n1 (fun p => fmul (D p) (fsum n1 (fun c => fmul (g c) (Vy c p))))).
      { symmetry. transitivity (fsum n1 (fun k => if k =? j then g k else f0)).
        2:{ rewrite fsum_delta, (proj2 (Nat.ltb_lt j n1) Hj). reflexivity. }
        transitivity (fsum n1 (fun p => fsum n1 (fun c => fmul (fmul (D p) (Vy c p)) (g c)))).
        - apply fsum_ext. intros p _. rewrite <- fsum_scal. apply fsum_ext. intros c _. ring.
        - rewrite fsum_swap. apply fsum_ext. intros c Hc. rewrite fsum_scal_r.
          assert (E := proj2 (HEy j c Hj Hc)). unfold D. rewrite E. unfold delta.
          rewrite (Nat.eqb_sym j c). destruct (c =? j); ring. }
      rewrite EG.
      transitivity (fmul (C m) (fsum n1 (fun p => fmul (fmul (fadd (fadd (h_sBUB K H) (lx m)) (ly p)) (h2_W b m p)) (D p)))).
      - transitivity (fmul (C m) (fadd (fadd (fsum n1 (fun p => fmul (h_sBUB K H) (fmul (h2_W b m p) (D p))))
             (fsum n1 (fun p => fmul (lx m) (fmul (h2_W b m p) (D p)))))
             (fsum n1 (fun p => fmul (h2_W b m p) (fmul (D p) (ly p)))))).
        + rewrite !fsum_scal.
          generalize (fsum n1 (fun p => fmul (h2_W b m p) (D p))) (fsum n1 (fun p => fmul (h2_W b m p) (fmul (D p) (ly p)))) (C m).
          intros x y z. ring.
        + f_equal. rewrite fsum3. apply fsum_ext. intros p _. generalize (h2_W b m p) (D p). intros. ring.
      - f_equal. apply fsum_ext. intros p Hp. unfold h2_W. fold (g). assert (E := Hd m p Hm Hp).
        change (fsum n1 (fun j0 => fmul (fsum n0 (fun k => fmul (Vx k m) (b k j0))) (Vy j0 p)))
          with (fsum n1 (fun c => fmul (g c) (Vy c p))).
        generalize (fsum n1 (fun c => fmul (g c) (Vy c p))). intros x. field. auto.
    Qed.
  End General.
End P.
