(** InnerSpec.v -- the discrete inner product of the documentation of inner():
      (f, g)_w^N = sum_i sum_j ... f(x_i, y_j, ..) g(x_i, y_j, ..) w_i w_j ...
    applied to expressions in a test function and a trial function of tensor product spaces. *)
From Coq Require Import Reals ZArith List Bool Arith String.
From Verif Require Import Base FormsModel FormsSpec InnerModel.
Import ListNotations.
Local Open Scope R_scope.

Definition lsum {A} (l : list A) (f : A -> R) : R := fold_right (fun a s => f a + s) 0 l.
(** f i * f (i+1) * ... with n factors *)
Fixpoint rprod (i n : nat) (f : nat -> R) : R :=
  match n with O => 1 | Datatypes.S n => f i * rprod (i + 1) n f end.

(** A quadrature rule: the points and the weights. *)
Definition rule := list (R * R).
(** Sum over the tensor product grid of the axes i, ..., i+n-1; [x] holds the other coordinates. *)
Fixpoint gridsum (i n : nat) (q : nat -> rule) (f : pt -> R) (x : pt) : R :=
  match n with
  | O => f x
  | Datatypes.S n => lsum (q i) (fun xw => snd xw * gridsum (i + 1) n q f (upd x i (fst xw)))
  end.
Definition origin : pt := fun _ => 0.
Definition on_grid (dim : nat) (q : nat -> rule) (x : pt) : Prop :=
  forall i, (i < dim)%nat -> In (x i) (map fst (q i)).

Section Spec.
Context {S : Sym} (L : SymLaws S).
Variable phi : space -> nat -> nat -> R -> R.   (* basis, index of the function, derivatives, point *)
Variable quad : space -> rule.                  (* the quadrature rule of a test basis, with its weight *)

(** The basis function with index [k] (one per axis) of component [p] of a space with the bases [sp]:
    component number, derivatives, point. *)
Definition basis (dim : nat) (sp : nat -> space) (p : nat) (k : nat -> nat)
  (c : nat) (ders : list nat) (x : pt) : R :=
  if Nat.eqb c p then rprod 0 dim (fun i => phi (sp i) (k i) (nth i ders 0%nat) (x i)) else 0.

(** sum over the components of the expressions, with metric coefficients G *)
Definition dotted (test trial : expr S) (nt nu : nat) (G : nat -> nat -> pt -> R)
  (U W : nat -> list nat -> pt -> R) (x : pt) : R :=
  rsum nt (fun i => rsum nu (fun j => G i j x * mean L test i U x * mean L trial j W x)).
(** product of two scalars, vectors or tensors, given by their components, with the metric tensor g *)
Definition contraction (rank dim : nat) (g : nat -> nat -> pt -> R) (test trial : expr S)
  (U W : nat -> list nat -> pt -> R) (x : pt) : R :=
  match rank with
  | O => mean L test 0 U x * mean L trial 0 W x
  | 1%nat => rsum dim (fun i => rsum dim (fun j => g i j x * (mean L test i U x * mean L trial j W x)))
  | _ => rsum dim (fun i => rsum dim (fun j => rsum dim (fun k => rsum dim (fun l =>
           g i k x * g j l x * (mean L test (i * dim + j) U x * mean L trial (k * dim + l) W x)))))
  end.

(** The form for the test function [k] of component [p] and the trial function [l] of component [q].  On
    every axis the trial function is a basis function of the trial basis or of its boundary basis. *)
Definition form (tsp : nat -> nat -> space) (dim : nat) (sg : pt -> R)
  (integrand : (nat -> list nat -> pt -> R) -> (nat -> list nat -> pt -> R) -> pt -> R)
  (p q : nat) (k : nat -> nat) (l : nat -> space * nat) : R :=
  gridsum 0 dim (fun i => quad (tsp p i))
    (fun x => sg x * integrand (basis dim (tsp p) p k) (basis dim (fun i => fst (l i)) q (fun i => snd (l i))) x)
    origin.

(** Entry (k, l) of block (p, q) of the sum of the matrices: scale times the product of the entries of the
    one-dimensional matrices; a matrix belongs to the columns of its trial basis only. *)
Fixpoint prod_entry (i : nat) (ms : list mat) (k : nat -> nat) (l : nat -> space * nat) : R :=
  match ms with
  | [] => 1
  | m :: ms => (if Nat.eqb (m_trial m) (fst (l i)) then m_ent m (k i) (snd (l i)) else 0)
               * prod_entry (i + 1) ms k l
  end.
Definition entry (dim : nat) (A : list tpm) (p q : nat) (k : nat -> nat) (l : nat -> space * nat) : R :=
  lsum A (fun m => if (Nat.eqb (p_row m) p && Nat.eqb (p_col m) q && Nat.eqb (List.length (p_mats m)) dim)%bool
                   then p_scale m * prod_entry 0 (p_mats m) k l else 0).

(** [l] is an index of the trial space, boundary bases included. *)
Definition column (bcspace : space -> option space) (dim : nat) (usp : nat -> space) (l : nat -> space * nat) : Prop :=
  forall i, (i < dim)%nat -> fst (l i) = usp i \/ bcspace (usp i) = Some (fst (l i)).

Definition at_most_one_bc (bcspace : space -> option space) (dim : nat) (usp : nat -> space) : Prop :=
  forall i j, (i < dim)%nat -> (j < dim)%nat -> bcspace (usp i) <> None -> bcspace (usp j) <> None -> i = j.

(** ** Functions *)
(** The indices of a trial basis, boundary basis included, and the sum over the indices of all axes. *)
Definition columns1 (bcspace : space -> option space) (n : space -> nat) (s : space) : list (space * nat) :=
  map (pair s) (seq 0 (n s)) ++ match bcspace s with Some t => map (pair t) (seq 0 (n t)) | None => [] end.
Fixpoint colsum (i dim : nat) (cl : nat -> list (space * nat)) (f : list (space * nat) -> R) : R :=
  match dim with
  | O => f []
  | Datatypes.S dim => lsum (cl i) (fun c => colsum (i + 1) dim cl (fun l => f (c :: l)))
  end.
Definition cnth (l : list (space * nat)) (i : nat) : space * nat := nth i l (0%nat, 0%nat).
(** component [c] of the Function with the coefficients [uhat], and its partial derivatives *)
Definition expansion (bcspace : space -> option space) (dim : nat) (usp : nat -> nat -> space) (n : space -> nat)
  (uhat : nat -> list (space * nat) -> R) (c : nat) (ders : list nat) (x : pt) : R :=
  colsum 0 dim (fun i => columns1 bcspace n (usp c i)) (fun l =>
    uhat c l * rprod 0 dim (fun i => phi (fst (cnth l i)) (snd (cnth l i)) (nth i ders 0%nat) (x i))).

(** Component [p] of the output needs of the test expression that its component with the number [p] is the one
    that contains the test functions of component [p] (true of v and of the Cartesian grad(v)).  [trank] is the
    tensor rank of the test function, [r] the rank of the expression. *)
Definition term_of (e : expr S) (c : nat) : Prop := exists cc t, In cc (e_comps e) /\ In t cc /\ t_ind t = c.
Definition own_component (trank r dim : nat) (test : expr S) (p : nat) : Prop :=
  match trank, r with
  | O, _ => forall c, term_of test c -> c = p
  | _, O => True
  | 1%nat, 1%nat => (p < dim)%nat /\
      forall i t, (i < dim)%nat -> In t (nth i (e_comps test) []) -> t_ind t = i
  | 1%nat, _ => (p < dim)%nat /\
      forall i j t, (i < dim)%nat -> (j < dim)%nat -> In t (nth (i * dim + j) (e_comps test) []) -> t_ind t = i
  | _, 1%nat => False
  | _, _ => (p < dim * dim)%nat /\
      forall i j t, (i < dim)%nat -> (j < dim)%nat -> In t (nth (i * dim + j) (e_comps test) []) -> t_ind t = (i * dim + j)%nat
  end.

(** ** What is assumed *)
(** the expressions and the metric are defined at the quadrature points *)
Definition grid_ok (co : coords S) (gij : nat -> nat -> S) (dim : nat) (tsp : nat -> nat -> space) (p : nat)
  (test trial : expr S) : Prop :=
  forall x, on_grid dim (fun i => quad (tsp p i)) x ->
    defined L test x /\ defined L trial x /\ good L (co_sg co) x /\ forall i j, good L (gij i j) x.
(** value of a factor that depends on one coordinate only *)
Variable mval : S -> R -> R.

(** one-dimensional products: inner_product is right (C36, C44); a matrix without diagonals is zero *)
Definition product1 (tt : space) (a : nat) (ts : space) (b : nat) (ms : S) (k l : nat) : R :=
  lsum (quad tt) (fun xw => snd xw * (phi tt k a (fst xw) * phi ts l b (fst xw) * mval ms (fst xw))).
Definition ip_law (ip : space -> nat -> space -> nat -> S -> option mat) : Prop :=
  forall tt a ts b ms,
    match ip tt a ts b ms with
    | Some m => m_trial m = ts /\ forall k l, m_ent m k l = product1 tt a ts b ms k l
    | None => forall k l, product1 tt a ts b ms k l = 0
    end.
(** sympy.separatevars: [names] are the names of the coordinates *)
Definition split_law (dim : nat) (names : list string) (split : S -> option (list (dict S))) : Prop :=
  (forall y, mval (s_int 1) y = 1) /\
  forall d items x, split d = Some items -> good L d x ->
    ev L d x = lsum items (fun dv => d_coeff dv * rprod 0 dim (fun i => mval (lookup dv (nth i names ""%string)) (x i))).
(** boundary bases *)
Definition bc_law (bcspace : space -> option space) (ip : space -> nat -> space -> nat -> S -> option mat) : Prop :=
  forall ts tsc, bcspace ts = Some tsc -> tsc <> ts /\
    forall tt a b ms, ip tt a ts b ms = None -> ip tt a tsc b ms = None.
End Spec.
